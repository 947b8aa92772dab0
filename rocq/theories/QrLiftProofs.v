(* Products of reflectors that act on two ranges of the rows of a longer vector. *)
From Coq Require Import ZArith List Ring Bool Lia.
From Verif Require Import Base NumModel NumProofs MatModel QrModel QrSpec QrAlgProofs QrStepProofs QrKerProofs QrKerProofs2 QrMulProofs.
Import ListNotations.
Open Scope Z_scope.

Section Lift.
  Variable N : numbers.
  Add Ring lift_ring : (nring N).
  Local Notation vec := (Z -> N).

  Section Two.
    Variables a p1 b p2 : Z.

    Definition gath (x : vec) (r : Z) : N := if r <? p1 then x (a + r) else x (b + (r - p1)).
    Definition put (w x : vec) (i : Z) : N :=
      if (a <=? i) && (i <? a + p1) then w (i - a)
      else if (b <=? i) && (i <? b + p2) then w (p1 + (i - b)) else x i.
    Definition lift (f : vec -> vec) (x : vec) : vec := put (f (gath x)) x.

    Lemma put_1 : forall w x r, 0 <= r < p1 -> put w x (a + r) = w r.
    Proof.
      intros. unfold put. destruct (Z.leb_spec a (a + r)); [|lia]. destruct (Z.ltb_spec (a + r) (a + p1)); [|lia].
      cbn [andb]. f_equal. lia.
    Qed.
    Lemma put_2 : forall w x r, a + p1 <= b -> 0 <= r < p2 -> put w x (b + r) = w (p1 + r).
    Proof.
      intros. unfold put. destruct (Z.ltb_spec (b + r) (a + p1)); [lia|]. rewrite andb_false_r.
      destruct (Z.leb_spec b (b + r)); [|lia]. destruct (Z.ltb_spec (b + r) (b + p2)); [|lia].
      cbn [andb]. f_equal. lia.
    Qed.
    Lemma put_0 : forall w x i, ~ (a <= i < a + p1) -> ~ (b <= i < b + p2) -> put w x i = x i.
    Proof.
      intros w x i H1 H2. unfold put. destruct (Z.leb_spec a i), (Z.ltb_spec i (a + p1)); cbn [andb]; try lia;
        destruct (Z.leb_spec b i), (Z.ltb_spec i (b + p2)); cbn [andb]; try reflexivity; lia.
    Qed.

    Variable p : Z.
    Hypothesis Ha : 0 <= a.
    Hypothesis H1 : 0 <= p1.
    Hypothesis Hb : a + p1 <= b.
    Hypothesis H2 : 0 <= p2.
    Hypothesis Hp : b + p2 <= p.

    Lemma gath_same : forall x y, same N p x y -> same N (p1 + p2) (gath x) (gath y).
    Proof. intros x y E r Hr. unfold gath. destruct (Z.ltb_spec r p1); apply E; lia. Qed.

    Lemma gath_put : forall w x, same N (p1 + p2) (gath (put w x)) w.
    Proof.
      intros w x r Hr. unfold gath. destruct (Z.ltb_spec r p1); [apply put_1; lia|].
      rewrite put_2 by lia. f_equal. lia.
    Qed.

    Lemma put_cong : forall w w' x x', same N (p1 + p2) w w' -> same N p x x' -> same N p (put w x) (put w' x').
    Proof.
      intros w w' x x' E1 E2 i Hi. unfold put.
      destruct (Z.leb_spec a i), (Z.ltb_spec i (a + p1)); cbn [andb]; try (apply E1; lia);
        destruct (Z.leb_spec b i), (Z.ltb_spec i (b + p2)); cbn [andb]; try (apply E1; lia); apply E2; lia.
    Qed.

    Lemma put_gath : forall w x, same N (p1 + p2) w (gath x) -> same N p (put w x) x.
    Proof.
      intros w x E i Hi. unfold put.
      destruct (Z.leb_spec a i), (Z.ltb_spec i (a + p1)); cbn [andb].
      - rewrite E by lia. unfold gath. destruct (Z.ltb_spec (i - a) p1); [|lia]. f_equal. lia.
      - destruct (Z.leb_spec b i), (Z.ltb_spec i (b + p2)); cbn [andb]; try reflexivity.
        rewrite E by lia. unfold gath. destruct (Z.ltb_spec (p1 + (i - b)) p1); [lia|]. f_equal. lia.
      - destruct (Z.leb_spec b i); [lia|reflexivity].
      - destruct (Z.leb_spec b i); [lia|reflexivity].
    Qed.

    Lemma put_put : forall w w' x i, put w (put w' x) i = put w x i.
    Proof.
      intros. unfold put. destruct ((a <=? i) && (i <? a + p1)); [reflexivity|].
      destruct ((b <=? i) && (i <? b + p2)); reflexivity.
    Qed.

    Definition rest (x y : vec) : N :=
      nadd (nsum (fun i => nmul (nconj (x i)) (y i)) 0 a)
        (nadd (nsum (fun i => nmul (nconj (x i)) (y i)) (a + p1) b)
              (nsum (fun i => nmul (nconj (x i)) (y i)) (b + p2) p)).

    Lemma dot_split : forall x y, dot N p x y = nadd (rest x y) (dot N (p1 + p2) (gath x) (gath y)).
    Proof.
      intros x y. unfold dot. rewrite (nsum_app N _ 0 a p) by lia. rewrite (nsum_app N _ a (a + p1) p) by lia.
      rewrite (nsum_app N _ (a + p1) b p) by lia. rewrite (nsum_app N _ b (b + p2) p) by lia.
      rewrite (nsum_app N (fun i => nmul (nconj (gath x i)) (gath y i)) 0 p1 (p1 + p2)) by lia.
      assert (E1 : nsum (fun i => nmul (nconj (x i)) (y i)) a (a + p1)
                 = nsum (fun i => nmul (nconj (gath x i)) (gath y i)) 0 p1).
      { transitivity (nsum (fun i => nmul (nconj (x (i + a))) (y (i + a))) 0 p1).
        - rewrite <- (nsum_shift N (fun i => nmul (nconj (x i)) (y i)) a 0 p1). f_equal; lia.
        - apply nsum_ext. intros i Hi. unfold gath. destruct (Z.ltb_spec i p1); [|lia].
          replace (i + a) with (a + i) by lia. reflexivity. }
      assert (E2 : nsum (fun i => nmul (nconj (x i)) (y i)) b (b + p2)
                 = nsum (fun i => nmul (nconj (gath x i)) (gath y i)) p1 (p1 + p2)).
      { transitivity (nsum (fun i => nmul (nconj (x (i + (b - p1)))) (y (i + (b - p1)))) p1 (p1 + p2)).
        - rewrite <- (nsum_shift N (fun i => nmul (nconj (x i)) (y i)) (b - p1) p1 (p1 + p2)). f_equal; lia.
        - apply nsum_ext. intros i Hi. unfold gath. destruct (Z.ltb_spec i p1); [lia|].
          replace (i + (b - p1)) with (b + (i - p1)) by lia. reflexivity. }
      rewrite E1, E2. unfold rest. ring.
    Qed.

    Lemma rest_r : forall x w y, rest x (put w y) = rest x y.
    Proof.
      intros. unfold rest. f_equal; [|f_equal]; apply nsum_ext; intros i Hi; f_equal; apply put_0; lia.
    Qed.
    Lemma rest_l : forall x w y, rest (put w x) y = rest x y.
    Proof.
      intros. unfold rest. f_equal; [|f_equal]; apply nsum_ext; intros i Hi; do 2 f_equal; apply put_0; lia.
    Qed.

    Lemma lift_uop : forall f g, uop N (p1 + p2) f g -> uop N p (lift f) (lift g).
    Proof.
      intros f g U. split.
      - intros x y. rewrite !dot_split. unfold lift. rewrite rest_r, rest_l. f_equal.
        rewrite (dot_ext N (p1 + p2) (gath x) (gath x) _ (f (gath y))) by (try apply gath_put; intros ? ?; reflexivity).
        rewrite (dot_ext N (p1 + p2) _ (g (gath x)) (gath y) (gath y)) by (try apply gath_put; intros ? ?; reflexivity).
        apply (u_adj _ _ _ _ U).
      - intros x i Hi. unfold lift. rewrite put_put. revert i Hi. apply put_gath. intros r Hr.
        rewrite (uop_ext N _ f g U _ (g (gath x))) by (auto; apply gath_put).
        apply (u_fg _ _ _ _ U). assumption.
      - intros x i Hi. unfold lift. rewrite put_put. revert i Hi. apply put_gath. intros r Hr.
        rewrite (uop_ext N _ g f (uop_sym N _ f g U) _ (f (gath x))) by (auto; apply gath_put).
        apply (u_gf _ _ _ _ U). assumption.
    Qed.
  End Two.

  (* ------------------------------------------------------------------ the steps of the factorization *)

  (* step (k,k) is geqrt of tile (k,k); step (k,q) with k < q is tsqrt of tiles (k,k) and (q,k) *)
  Variables nb m K : Z.
  Local Notation tsz k x := (Z.min nb (k - x * nb)).

  Definition s_p1 (o : Z * Z) : Z := if snd o =? fst o then tsz m (fst o) else tsz K (fst o).
  Definition s_p2 (o : Z * Z) : Z := if snd o =? fst o then 0 else tsz m (snd o).
  Definition s_a (o : Z * Z) : Z := fst o * nb.
  Definition s_b (o : Z * Z) : Z := if snd o =? fst o then fst o * nb + tsz m (fst o) else snd o * nb.
  Definition s_k (o : Z * Z) : Z := tsz K (fst o).
  Definition s_V (El : Z -> Z -> N) (o : Z * Z) : Z -> Z -> N :=
    if snd o =? fst o then v_unit (fun r c => El (fst o * nb + r) (fst o * nb + c))
    else vst N (s_k o) (fun r c => El (snd o * nb + r) (fst o * nb + c)).

  Definition s_ok (o : Z * Z) : Prop := 0 <= fst o /\ fst o <= snd o /\ snd o * nb < m /\ fst o * nb < K.

  Definition s_good (ib : Z) (El : Z -> Z -> N) (Tl : Z -> Z -> Z -> Z -> N) (tau : vec) (o : Z * Z) : Prop :=
    (forall c, 0 <= c < s_k o -> unit_cond N (s_p1 o + s_p2 o) (tau c) (colv N (s_V El o) c)) /\
    all_good N (s_p1 o + s_p2 o) (s_V El o) tau (Tl (snd o) (fst o)) ib (s_k o) (s_k o).

  Definition s_f (trans : Z) (El : Z -> Z -> N) (tau : vec) (o : Z * Z) : vec -> vec :=
    lift (s_a o) (s_p1 o) (s_b o) (s_p2 o) (hF N trans (s_p1 o + s_p2 o) (s_V El o) tau 0 (s_k o)).

  Hypothesis Hnb : 0 < nb.
  Hypothesis HK : K <= m.

  Lemma s_bounds : forall o, s_ok o -> 0 <= s_a o /\ 0 <= s_p1 o /\ s_a o + s_p1 o <= s_b o /\ 0 <= s_p2 o /\ s_b o + s_p2 o <= m /\ 0 < s_k o <= s_p1 o.
  Proof.
    intros [k q] (H1 & H2 & H3 & H4). unfold s_a, s_p1, s_p2, s_b, s_k. cbn [fst snd] in *.
    destruct (Z.eqb_spec q k) as [->|D]; [repeat split; nia|]. assert (k * nb + nb <= q * nb) by nia. repeat split; nia.
  Qed.

  Lemma s_uop : forall ib El Tl tau o, s_ok o -> s_good ib El Tl tau o ->
    uop N m (s_f PlasmaNoTrans El tau o) (s_f PlasmaConjTrans El tau o).
  Proof.
    intros ib El Tl tau o HO (HU & _). destruct (s_bounds o HO) as (B1 & B2 & B3 & B4 & B5 & B6).
    apply lift_uop; auto. unfold hF. rewrite Z.eqb_refl. change (PlasmaConjTrans =? PlasmaNoTrans) with false. cbv iota.
    apply h_uop. intros c Hc. apply HU. lia.
  Qed.

  (* the elements of the matrix that a step's reflectors are stored in *)
  Definition s_reads (o : Z * Z) (i j : Z) : Prop :=
    0 <= j - fst o * nb < s_k o /\ 0 <= i - snd o * nb < tsz m (snd o) /\ (snd o = fst o -> j < i).

  Lemma s_V_cong : forall El El' o, s_ok o -> (forall i j, s_reads o i j -> El i j = El' i j) ->
    forall r c, 0 <= r < s_p1 o + s_p2 o -> 0 <= c < s_k o -> s_V El o r c = s_V El' o r c.
  Proof.
    intros El El' [k q] HO E r c Hr Hc. destruct (s_bounds (k, q) HO) as (B1 & B2 & B3 & B4 & B5 & B6).
    unfold s_V, s_p1, s_p2, s_k, s_reads in *. cbn [fst snd] in *.
    destruct (Z.eqb_spec q k) as [->|D].
    - unfold v_unit. destruct (Z.eqb_spec r c); [reflexivity|]. destruct (Z.ltb_spec r c); [reflexivity|]. apply E. unfold s_k. cbn [fst]. repeat split; lia.
    - unfold vst, stk, s_k. cbn [fst]. destruct (Z.ltb_spec r (tsz K k)); [reflexivity|]. apply E. unfold s_k. cbn [fst]. repeat split; lia.
  Qed.

  Lemma s_f_cong : forall trans El El' tau tau' o, s_ok o -> (forall i j, s_reads o i j -> El i j = El' i j) ->
    (forall c, 0 <= c < s_k o -> tau c = tau' c) ->
    forall x y, same N m x y -> same N m (s_f trans El tau o x) (s_f trans El' tau' o y).
  Proof.
    intros trans El El' tau tau' o HO HE Ht x y E. destruct (s_bounds o HO) as (B1 & B2 & B3 & B4 & B5 & B6).
    unfold s_f, lift. apply put_cong; auto; try lia. apply hF_cong; auto.
    - intros c r Hc Hr. apply s_V_cong; auto.
    - apply gath_same with (p := m) (b := s_b o) (p2 := s_p2 o); auto; lia.
  Qed.

  Lemma s_good_cong : forall ib El El' (Tl Tl' : Z -> Z -> Z -> Z -> N) tau tau' o, 0 < ib -> s_ok o ->
    (forall i j, s_reads o i j -> El i j = El' i j) ->
    (forall a c, 0 <= c < s_k o -> 0 <= a <= c mod ib -> Tl (snd o) (fst o) a c = Tl' (snd o) (fst o) a c) ->
    (forall c, 0 <= c < s_k o -> tau c = tau' c) ->
    s_good ib El Tl tau o -> s_good ib El' Tl' tau' o.
  Proof.
    intros ib El El' Tl Tl' tau tau' o Hib HO HE HT Ht (G1 & G2). split.
    - intros c Hc. unfold unit_cond in *. rewrite <- Ht by assumption. rewrite G1 by assumption. f_equal.
      apply dot_ext; intros r Hr; unfold colv; apply s_V_cong; auto.
    - eapply all_good_cong; [assumption| | | |exact G2]; auto. intros c r Hc Hr. apply s_V_cong; auto.
  Qed.

  (* all steps *)
  Definition s_all (trans : Z) (El : Z -> Z -> N) (taus : Z * Z -> vec) (os : list (Z * Z)) (x : vec) : vec :=
    fold_left (fun x o => s_f trans El (taus o) o x) os x.

  Lemma s_all_cong : forall trans El El' taus taus' os, (forall o, In o os -> s_ok o) ->
    (forall o, In o os -> forall i j, s_reads o i j -> El i j = El' i j) ->
    (forall o, In o os -> forall c, 0 <= c < s_k o -> taus o c = taus' o c) ->
    forall x y, same N m x y -> same N m (s_all trans El taus os x) (s_all trans El' taus' os y).
  Proof.
    intros trans El El' taus taus' os HO HE Ht. unfold s_all.
    induction os as [|o os IH]; intros x y E; cbn [fold_left]; [assumption|].
    apply IH.
    - intros; apply HO; right; assumption.
    - intros o' Ho'; apply HE; right; assumption.
    - intros o' Ho'; apply Ht; right; assumption.
    - apply s_f_cong; auto; [apply HO; left; reflexivity|apply HE; left; reflexivity|apply Ht; left; reflexivity].
  Qed.

  Lemma s_all_uop : forall ib El Tl taus os, (forall o, In o os -> s_ok o /\ s_good ib El Tl (taus o) o) ->
    uop N m (s_all PlasmaNoTrans El taus (rev os)) (s_all PlasmaConjTrans El taus os).
  Proof.
    intros ib El Tl taus os. unfold s_all. induction os as [|o os IH]; intros H; cbn [rev fold_left].
    - apply uop_id.
    - eapply uop_replace; [|intros x r Hr; rewrite fold_left_app; reflexivity|intros x r Hr; reflexivity].
      cbn [fold_left].
      destruct (H o (or_introl eq_refl)) as [HO HG].
      apply (uop_comp N m (s_f PlasmaNoTrans El (taus o) o) (s_f PlasmaConjTrans El (taus o) o)
               (fun x => fold_left (fun x o => s_f PlasmaNoTrans El (taus o) o x) (rev os) x)
               (fun x => fold_left (fun x o => s_f PlasmaConjTrans El (taus o) o x) os x)).
      + eapply s_uop; eauto.
      + apply IH. intros; apply H; right; assumption.
  Qed.
End Lift.
