(* The factorization kernels compute products of reflectors. *)
From Coq Require Import ZArith List Ring Bool Lia.
From Verif Require Import Base NumModel NumProofs MatModel QrModel QrSpec QrAlgProofs QrStepProofs.
Import ListNotations.
Open Scope Z_scope.

Section Ker.
  Variable N : numbers.
  Add Ring ker_ring : (nring N).
  Variable lg : N -> list N -> N * N * list N.
  Hypothesis LG : larfg_ok lg.
  Local Notation vec := (Z -> N).

  Lemma nth_zrange_map : forall (h : Z -> N) a b x d, 0 <= x < b - a ->
    nth (Z.to_nat x) (map h (zrange a b)) d = h (a + x).
  Proof.
    intros h a b x d Hx. unfold zrange.
    assert (G : forall n lo y, (y < n)%nat -> nth y (map h (zrange_nat lo n)) d = h (lo + Z.of_nat y)).
    { clear. induction n as [|n IH]; intros lo y Hy; [lia|]. cbn [zrange_nat map]. destruct y as [|y].
      - cbn. rewrite Z.add_0_r. reflexivity.
      - cbn [nth]. rewrite IH by lia. f_equal. lia. }
    rewrite G by lia. f_equal. lia.
  Qed.

  Lemma length_zrange : forall a b, a <= b -> Z.of_nat (length (zrange a b)) = b - a.
  Proof.
    intros a b H. unfold zrange.
    assert (G : forall n lo, length (zrange_nat lo n) = n) by (induction n; intros; cbn; auto).
    rewrite G. lia.
  Qed.

  Lemma dot_pivot : forall p q j (u y : vec), 0 <= j < q -> q <= p ->
    (forall r, 0 <= r < q -> r <> j -> u r = n0) ->
    dot N p u y = nadd (nmul (nconj (u j)) (y j)) (nsum (fun i => nmul (nconj (u (q + i))) (y (q + i))) 0 (p - q)).
  Proof.
    intros p q j u y Hj Hq HZ. unfold dot.
    rewrite (nsum_app _ _ 0 q p) by lia. f_equal.
    - rewrite (nsum_app _ _ 0 j q) by lia. rewrite (nsum_cons _ _ j q) by lia.
      rewrite (nsum_0 _ _ 0 j), (nsum_0 _ _ (j + 1) q).
      + ring.
      + intros i Hi. rewrite HZ by lia. rewrite nconj_0. ring.
      + intros i Hi. rewrite HZ by lia. rewrite nconj_0. ring.
    - rewrite <- (Z.add_0_l q) at 1. replace p with (p - q + q) at 1 by lia. rewrite nsum_shift. apply nsum_ext.
      intros i Hi. rewrite (Z.add_comm i q). reflexivity.
  Qed.

  Lemma larfg_use : forall alpha xs beta t v p q j (u x : vec),
    lg alpha xs = (beta, t, v) -> 0 <= j < q -> p = q + Z.of_nat (length xs) ->
    (forall r, 0 <= r < q -> r <> j -> u r = n0) -> u j = n1 ->
    (forall i, 0 <= i < p - q -> u (q + i) = nth (Z.to_nat i) v n0) ->
    x j = alpha -> (forall i, 0 <= i < p - q -> x (q + i) = nth (Z.to_nat i) xs n0) ->
    unit_cond N p t u /\ hh N p (nconj t) u x j = beta /\
    (forall r, q <= r < p -> hh N p (nconj t) u x r = n0) /\
    (forall r, 0 <= r < q -> r <> j -> hh N p (nconj t) u x r = x r).
  Proof.
    intros alpha xs beta t v p q j u x E Hj Hp HZ H1 Hu Hx Hxs.
    pose proof (LG alpha xs beta t v E) as L. cbv zeta beta in L. destruct L as (C1 & C2 & C3). clear E.
    assert (D : q <= p) by lia.
    replace (Z.of_nat (length xs)) with (p - q) in * by lia. clear Hp.
    assert (DV : dot N p u u = nadd n1 (nsum (fun i => nmul (nconj (nth (Z.to_nat i) v n0)) (nth (Z.to_nat i) v n0)) 0 (p - q))).
    { rewrite (dot_pivot p q j) by assumption. rewrite H1, nconj_1. f_equal; [ring|]. apply nsum_ext.
      intros i Hi. rewrite Hu by assumption. reflexivity. }
    assert (DX : dot N p u x = nadd alpha (nsum (fun i => nmul (nconj (nth (Z.to_nat i) v n0)) (nth (Z.to_nat i) xs n0)) 0 (p - q))).
    { rewrite (dot_pivot p q j) by assumption. rewrite H1, nconj_1, Hx. f_equal; [ring|]. apply nsum_ext.
      intros i Hi. rewrite Hu, Hxs by assumption. reflexivity. }
    split; [|split; [|split]].
    - unfold unit_cond. rewrite DV. exact C1.
    - unfold hh. rewrite DX, H1, Hx, C2. ring.
    - intros r Hr. unfold hh. rewrite DX. replace r with (q + (r - q)) by lia.
      rewrite Hu, Hxs by lia. etransitivity; [|apply (C3 (r - q)); lia]. ring.
    - intros r Hr Hrj. unfold hh. rewrite (HZ r Hr Hrj). ring.
  Qed.

  (* a sum that starts at the diagonal of T *)
  Lemma tu_mask : forall i0 (T : Z -> Z -> N) (g : vec) a c, 0 <= a <= c ->
    nsum (fun b => nmul (tu N i0 T a b) (g b)) 0 c = nsum (fun b => nmul (T a (i0 + b)) (g b)) a c.
  Proof.
    intros i0 T g a c H. rewrite (nsum_app _ _ 0 a c) by lia. rewrite (nsum_0 _ _ 0 a).
    - rewrite (nsum_ext _ _ (fun b => nmul (T a (i0 + b)) (g b)) a c); [ring|].
      intros b Hb. rewrite tu_le by lia. reflexivity.
    - intros b Hb. rewrite tu_gt by lia. ring.
  Qed.

  (* ------------------------------------------------------------------ geqrt *)

  Lemma v_unit_low : forall (A : Z -> Z -> N) r c, r < c -> v_unit A r c = n0.
  Proof. intros. unfold v_unit. destruct (Z.ltb_spec r c); [reflexivity|lia]. Qed.
  Lemma v_unit_diag : forall (A : Z -> Z -> N) c, v_unit A c c = n1.
  Proof. intros. unfold v_unit. rewrite Z.ltb_irrefl, Z.eqb_refl. reflexivity. Qed.
  Lemma v_unit_below : forall (A : Z -> Z -> N) r c, c < r -> v_unit A r c = A r c.
  Proof. intros. unfold v_unit. destruct (Z.ltb_spec r c); [lia|]. destruct (Z.eqb_spec r c); [lia|reflexivity]. Qed.
  Lemma v_unit_cong : forall (A B : Z -> Z -> N) r c, A r c = B r c -> v_unit A r c = v_unit B r c.
  Proof. intros. unfold v_unit. destruct (r <? c); [reflexivity|]. destruct (r =? c); [reflexivity|assumption]. Qed.

  (* the reduced matrix: zeros where the reflectors of the first j columns are stored *)
  Definition rview (j : Z) (X : Z -> Z -> N) (r c : Z) : N := if (c <? j) && (c <? r) then n0 else X r c.

  Lemma geqr2_inv : forall m n A0 X (ts : vec) tau i hi j, 0 <= i <= j -> j < hi -> hi <= n -> j < m ->
    (forall c, i <= c < j -> ts c = tau c) ->
    qinv N m n A0 (v_unit X) tau (rview j X) i hi j ->
    let R := geqr2_step lg m hi (X, ts) j in
    let X' := memo m n (fst R) in
    let tau' c := if c =? j then snd R c else tau c in
    qinv N m n A0 (v_unit X') tau' (rview (j + 1) X') i hi (j + 1) /\
    (forall c, i <= c < j + 1 -> snd R c = tau' c) /\
    (forall r c, 0 <= r < m -> 0 <= c < j \/ hi <= c < n -> X' r c = X r c).
  Proof.
    intros m n A0 X ts tau i hi j Hi Hj Hhi Hm Hts QI R X' tau'.
    unfold geqr2_step in R. cbn [fst snd] in R.
    destruct (lg (X j j) (map (fun r => X r j) (zrange (j + 1) m))) as [[beta t] v] eqn:E.
    set (vj := fun r => if r <? j then n0 else if r =? j then n1 else nth (Z.to_nat (r - j - 1)) v n0) in R.
    assert (LE : Z.of_nat (length (map (fun r => X r j) (zrange (j + 1) m))) = m - (j + 1)).
    { rewrite map_length. apply length_zrange. lia. }
    destruct (larfg_use _ _ _ _ _ m (j + 1) j vj (fun r => X r j) E) as (U1 & U2 & U3 & U4); try lia.
    { intros r Hr Hrj. unfold vj. destruct (Z.ltb_spec r j); [reflexivity|lia]. }
    { unfold vj. rewrite Z.ltb_irrefl, Z.eqb_refl. reflexivity. }
    { intros k Hk. unfold vj. destruct (Z.ltb_spec (j + 1 + k) j); [lia|].
      destruct (Z.eqb_spec (j + 1 + k) j); [lia|]. f_equal. lia. }
    { reflexivity. }
    { intros k Hk. rewrite nth_zrange_map by lia. reflexivity. }
    assert (XK : forall r c, 0 <= r < m -> 0 <= c < j \/ hi <= c < n -> X' r c = X r c).
    { intros r c Hr Hc. unfold X', R. cbn [fst]. rewrite memo_in by lia.
      destruct (Z.eqb_spec c j); [lia|].
      destruct (Z.ltb_spec j c); destruct (Z.ltb_spec c hi); cbn [andb]; try reflexivity; lia. }
    assert (XJ : forall r, 0 <= r < m -> X' r j = if r <? j then X r j else if r =? j then beta else vj r).
    { intros r Hr. unfold X', R. cbn [fst]. rewrite memo_in by lia. rewrite Z.eqb_refl. reflexivity. }
    assert (TJ : tau' j = t).
    { unfold tau', R. cbn [snd]. rewrite !Z.eqb_refl. reflexivity. }
    assert (VJ : forall r, 0 <= r < m -> v_unit X' r j = vj r).
    { intros r Hr. destruct (Z.lt_total r j) as [L|[->|L]].
      - rewrite v_unit_low by assumption. unfold vj. destruct (Z.ltb_spec r j); [reflexivity|lia].
      - rewrite v_unit_diag. unfold vj. rewrite Z.ltb_irrefl, Z.eqb_refl. reflexivity.
      - rewrite v_unit_below by assumption. rewrite XJ by assumption.
        destruct (Z.ltb_spec r j); [lia|]. destruct (Z.eqb_spec r j); [lia|]. reflexivity. }
    split; [|split].
    - apply (qinv_step N m n A0 (v_unit X) tau (rview j X) i hi j); auto.
      + intros c r Hc Hr. apply v_unit_cong. apply XK; [assumption|]. left. assumption.
      + intros c Hc. unfold tau'. destruct (Z.eqb_spec c j); [lia|reflexivity].
      + intros r Hr. apply v_unit_low. lia.
      + rewrite TJ. unfold unit_cond in *. rewrite U1. f_equal.
        apply dot_ext; intros r Hr; unfold colv; symmetry; apply VJ; assumption.
      + intros c r Hc Hr. rewrite TJ.
        transitivity (hh N m (nconj t) vj (colv N (rview j X) c) r).
        2:{ apply hh_ext; [|intros ? ?; reflexivity|assumption]. intros s Hs. unfold colv. symmetry. apply VJ. assumption. }
        destruct (Z.eq_dec c j) as [->|Hcj].
        * transitivity (hh N m (nconj t) vj (fun r => X r j) r).
          2:{ apply hh_ext; [intros ? ?; reflexivity| |assumption]. intros s Hs. unfold colv, rview.
              rewrite Z.ltb_irrefl. reflexivity. }
          unfold rview. destruct (Z.ltb_spec j (j + 1)); [|lia]. cbn [andb].
          destruct (Z.ltb_spec j r) as [L|L].
          -- symmetry. apply U3. lia.
          -- rewrite XJ by assumption. destruct (Z.ltb_spec r j) as [L'|L'].
             ++ symmetry. apply U4; lia.
             ++ replace r with j by lia. rewrite Z.eqb_refl. symmetry. exact U2.
        * unfold rview at 1. destruct (Z.ltb_spec c (j + 1)); [lia|]. cbn [andb].
          unfold X', R. cbn [fst]. rewrite memo_in by lia.
          destruct (Z.eqb_spec c j); [lia|].
          destruct (Z.ltb_spec j c); [|lia]. destruct (Z.ltb_spec c hi); [|lia]. cbn [andb].
          unfold hh, dot. rewrite (nsum_app _ _ 0 j m) by lia. rewrite (nsum_0 _ _ 0 j).
          -- unfold colv, rview. destruct (Z.ltb_spec c j); [lia|]. cbn [andb]. unfold vj. ring.
          -- intros s Hs. unfold vj. destruct (Z.ltb_spec s j); [|lia]. rewrite nconj_0. ring.
      + intros c r Hc Hr. unfold rview. rewrite XK by assumption.
        destruct Hc as [Hc|Hc].
        * destruct (Z.ltb_spec c (j + 1)); [|lia]. destruct (Z.ltb_spec c j); [reflexivity|lia].
        * destruct (Z.ltb_spec c (j + 1)); [lia|]. destruct (Z.ltb_spec c j); [lia|reflexivity].
      + intros r Hr. unfold rview. destruct (Z.ltb_spec j (j + 1)); [|lia]. destruct (Z.ltb_spec j r); [reflexivity|lia].
    - intros c Hc. unfold tau', R. cbn [snd]. destruct (Z.eqb_spec c j); [reflexivity|]. apply Hts. lia.
    - exact XK.
  Qed.

  (* larft fills the columns of a block *)
  Lemma larft_inv : forall m i sb ib k A tau T0, 0 <= i -> sb <= ib -> i + sb <= k -> 0 <= sb -> k <= m ->
    let T1 := fold_left (fun T j => memo ib k (larft_step m i A tau T j)) (zrange i (i + sb)) T0 in
    t_good N m (v_unit A) tau i T1 sb /\
    (forall a c, 0 <= a < ib -> 0 <= c < i -> T1 a c = T0 a c).
  Proof.
    intros m i sb ib k A tau T0 Hi Hsb Hk H0 Hm.
    pose (P := fun (j : Z) (T : Z -> Z -> N) => t_good N m (v_unit A) tau i T (j - i) /\
      (forall a c, 0 <= a < ib -> 0 <= c < i -> T a c = T0 a c)).
    assert (G : P (i + sb) (fold_left (fun T j => memo ib k (larft_step m i A tau T j)) (zrange i (i + sb)) T0)).
    2:{ unfold P in G. replace (i + sb - i) with sb in G by lia. exact G. }
    apply (fold_zrange_ind P); [lia| |].
    - split; [|reflexivity]. intros c Hc. lia.
    - intros j T Hj [HG HK]. split.
      + intros c Hc. destruct (Z.eq_dec c (j - i)) as [->|Hcj].
        * replace (i + (j - i)) with j by lia. split.
          -- rewrite memo_in by lia. unfold larft_step. rewrite !Z.eqb_refl. reflexivity.
          -- intros a Ha. rewrite memo_in by lia. unfold larft_step. rewrite Z.eqb_refl.
             destruct (Z.eqb_spec a (j - i)); [lia|]. rewrite tu_mask by lia. apply nsum_ext. intros b Hb.
             f_equal; [rewrite memo_in by lia; unfold larft_step; destruct (Z.eqb_spec (i + b) j); [lia|reflexivity]|].
             f_equal. unfold dot. rewrite (nsum_app _ _ 0 j m) by lia. rewrite (nsum_0 _ _ 0 j).
             ++ unfold colv. ring.
             ++ intros s Hs. unfold colv. rewrite (v_unit_low A s j) by lia. ring.
        * assert (CG : t_good N m (v_unit A) tau i (memo ib k (larft_step m i A tau T j)) (j - i)).
          { eapply t_good_cong; [| | |exact HG]; auto. intros a c' Ha Hc'. rewrite memo_in by lia.
            unfold larft_step. destruct (Z.eqb_spec (i + c') j); [lia|reflexivity]. }
          apply CG. lia.
      + intros a c Ha Hc. rewrite memo_in by lia. unfold larft_step. destruct (Z.eqb_spec c j); [lia|]. apply HK; assumption.
  Qed.

  (* zlarfb applies the reflectors of a block *)
  Lemma larfb_dot : forall m i (V C : Z -> Z -> N) b c, 0 <= i <= m -> 0 <= b ->
    nsum (fun s => nmul (nconj (v_unit V s (i + b))) (C s c)) i m = dot N m (colv N (v_unit V) (i + b)) (colv N C c).
  Proof.
    intros m i V C b c Hi Hb. unfold dot. rewrite (nsum_app _ _ 0 i m) by lia. rewrite (nsum_0 _ _ 0 i).
    - unfold colv. ring.
    - intros s Hs. unfold colv. rewrite v_unit_low by lia. rewrite nconj_0. ring.
  Qed.

  Lemma t_op_C : forall trans (T : Z -> Z -> N) i a b, trans <> PlasmaNoTrans ->
    t_op trans T i a b = nconj (tu N i T b a).
  Proof. intros. unfold t_op. destruct (Z.eqb_spec trans PlasmaNoTrans); [contradiction|]. reflexivity. Qed.
  Lemma t_op_N : forall (T : Z -> Z -> N) i a b, t_op PlasmaNoTrans T i a b = tu N i T a b.
  Proof. intros. unfold t_op. rewrite Z.eqb_refl. reflexivity. Qed.

  Lemma larfb_left_w : forall trans m i kb V T C r c, 0 <= i <= m -> 0 <= r ->
    larfb_left trans m i kb V T C r c =
      (if trans =? PlasmaNoTrans then wN N m (v_unit V) i T kb (colv N C c) r
       else wC N m (v_unit V) i T kb (colv N C c) r).
  Proof.
    intros trans m i kb V T C r c Hi Hr. unfold larfb_left.
    assert (G : forall g : Z -> N, r < i -> nsum (fun a => nmul (v_unit V r (i + a)) (g a)) 0 kb = n0).
    { intros g L. apply nsum_0. intros a Ha. rewrite v_unit_low by lia. ring. }
    destruct (Z.ltb_spec r i) as [L|L].
    - destruct (trans =? PlasmaNoTrans); [unfold wN|unfold wC]; rewrite (G _ L); unfold colv; ring.
    - destruct (Z.eqb_spec trans PlasmaNoTrans) as [->|D]; [unfold wN|unfold wC]; unfold colv at 1; f_equal;
        apply nsum_ext; intros a Ha; f_equal; apply nsum_ext; intros b Hb; rewrite larfb_dot by lia;
        [rewrite t_op_N|rewrite t_op_C by assumption]; reflexivity.
  Qed.

  Lemma larfb_left_C : forall m i kb V T C tau r c, 0 <= i <= m -> 0 <= r < m -> 0 <= kb ->
    t_good N m (v_unit V) tau i T kb ->
    larfb_left PlasmaConjTrans m i kb V T C r c = hC N m (v_unit V) tau i (i + kb) (colv N C c) r.
  Proof.
    intros. rewrite larfb_left_w by lia. change (PlasmaConjTrans =? PlasmaNoTrans) with false. cbv iota.
    apply wC_h; assumption.
  Qed.

  Lemma larfb_left_N : forall m i kb V T C tau r c, 0 <= i <= m -> 0 <= r < m -> 0 <= kb ->
    t_good N m (v_unit V) tau i T kb ->
    larfb_left PlasmaNoTrans m i kb V T C r c = hN N m (v_unit V) tau i (i + kb) (colv N C c) r.
  Proof.
    intros. rewrite larfb_left_w by lia. change (PlasmaNoTrans =? PlasmaNoTrans) with true. cbv iota.
    apply wN_h; assumption.
  Qed.

  Definition all_good (p : Z) (V : Z -> Z -> N) (tau : vec) (T : Z -> Z -> N) (ib k upto : Z) : Prop :=
    forall i, 0 <= i < upto -> i mod ib = 0 -> t_good N p V tau i T (Z.min ib (k - i)).

  Lemma qinv_cong : forall p n A0 V V' tau tau' X X' i0 hi j, 0 <= i0 <= j -> 
    (forall c r, 0 <= c < j -> 0 <= r < p -> V r c = V' r c) ->
    (forall c, 0 <= c < j -> tau c = tau' c) ->
    (forall c r, 0 <= c < n -> 0 <= r < p -> X r c = X' r c) -> j <= hi <= n ->
    qinv N p n A0 V tau X i0 hi j -> qinv N p n A0 V' tau' X' i0 hi j.
  Proof.
    intros p n A0 V V' tau tau' X X' i0 hi j Hi HV Ht HX Hn (Q1 & Q2 & Q3 & Q4). split; [|split; [|split]].
    - intros c Hc. specialize (Q1 c Hc). unfold unit_cond in *. rewrite <- (Ht c Hc), Q1. f_equal.
      apply dot_ext; intros r Hr; unfold colv; apply HV; lia.
    - intros c r Hc Hr. rewrite <- HX by lia. rewrite Q2 by assumption.
      apply hC_cong; [intros; apply HV; lia|intros; apply Ht; lia|intros ? ?; reflexivity|assumption].
    - intros c r Hc Hr. rewrite <- HX by lia. rewrite Q3 by assumption.
      apply hC_cong; [intros; apply HV; lia|intros; apply Ht; lia|intros ? ?; reflexivity|assumption].
    - intros c r Hc Hr. rewrite <- HX by lia. apply Q4; assumption.
  Qed.

  Lemma qinv_widen : forall p n A0 V tau X i hi, i <= hi <= n ->
    qinv N p n A0 V tau X i i i -> qinv N p n A0 V tau X i hi i.
  Proof.
    intros p n A0 V tau X i hi H (Q1 & Q2 & Q3 & Q4). split; [assumption|]. split; [|split; [|assumption]].
    - intros c r Hc Hr. destruct (Z.ltb_spec c i); [apply Q2|apply Q3]; lia.
    - intros c r Hc Hr. apply Q3; lia.
  Qed.

  Lemma rview_cong : forall j X X' r c, X r c = X' r c -> rview j X r c = rview j X' r c.
  Proof. intros. unfold rview. destruct ((c <? j) && (c <? r)); [reflexivity|assumption]. Qed.

  (* the reflectors and scalars of a kernel, the reduced matrix it leaves, and the T factors *)
  Definition factored (p n k ib : Z) (A0 V R T : Z -> Z -> N) : Prop :=
    exists tau : vec,
      (forall c, 0 <= c < k -> unit_cond N p (tau c) (colv N V c)) /\
      (forall r c, 0 <= r < p -> 0 <= c < n -> hC N p V tau 0 k (colv N A0 c) r = R r c) /\
      all_good p V tau T ib k k.

  Lemma geqrt_spec : forall m n ib A, 0 < ib -> 0 <= m -> 0 <= n ->
    let R := geqrt_mat lg m n ib A in
    factored m n (Z.min m n) ib A (v_unit (fst R)) (fun r c => if r <=? c then fst R r c else n0) (snd R).
  Proof.
    intros m n ib A Hib Hm Hn. cbv zeta. set (k := Z.min m n).
    pose (P := fun (i : Z) (S : (Z -> Z -> N) * (Z -> Z -> N)) => exists tau : vec,
       qinv N m n A (v_unit (fst S)) tau (rview i (fst S)) i i i /\
       all_good m (v_unit (fst S)) tau (snd S) ib k i).
    assert (G : P k (geqrt_mat lg m n ib A)).
    2:{ destruct G as (tau & (Q1 & Q2 & Q3 & Q4) & HG). exists tau. split; [assumption|]. split; [|assumption].
        intros r c Hr Hc.
        assert (E : rview k (fst (geqrt_mat lg m n ib A)) r c = hC N m (v_unit (fst (geqrt_mat lg m n ib A))) tau 0 k (colv N A c) r).
        { destruct (Z.ltb_spec c k); [apply Q2|apply Q3]; lia. }
        rewrite <- E. unfold rview. destruct (Z.leb_spec r c).
        - destruct (Z.ltb_spec c r); [lia|]. rewrite andb_false_r. reflexivity.
        - destruct (Z.ltb_spec c r); [|lia]. destruct (Z.ltb_spec c k); [reflexivity|unfold k in *; lia]. }
    unfold geqrt_mat. fold k. cbv zeta. apply (blocks_ind P); [assumption|unfold k; lia| |].
    - exists (fun _ => n0). cbn [fst snd]. split; [|intros i Hi; lia].
      split; [intros; lia|]. split; [intros; lia|]. split; [|intros; lia].
      intros c r Hc Hr. rewrite hC_nil by lia. unfold rview. destruct (Z.ltb_spec c 0); [lia|reflexivity].
    - intros i [X0 T0] Hi Hmod (tau0 & QI & HG). cbn [fst snd] in *.
      set (sb := Z.min ib (k - i)). set (hi := i + sb).
      assert (Hsb : 0 < sb <= ib) by (unfold sb; lia).
      assert (Hhi : hi <= k) by (unfold hi, sb; lia).
      assert (Hkm : k <= m /\ k <= n) by (unfold k; lia).
      pose (P' := fun (j : Z) (S : (Z -> Z -> N) * vec) => exists tau : vec,
        qinv N m n A (v_unit (fst S)) tau (rview j (fst S)) i hi j /\
        (forall c, i <= c < j -> snd S c = tau c) /\
        (forall r c, 0 <= r < m -> 0 <= c < i -> fst S r c = X0 r c) /\
        (forall c, 0 <= c < i -> tau c = tau0 c)).
      set (f := fun (Q : (Z -> Z -> N) * vec) j => (memo m n (fst (geqr2_step lg m hi Q j)), snd (geqr2_step lg m hi Q j))).
      set (Q := fold_left f (zrange i hi) (X0, fun _ : Z => n0)).
      assert (G' : P' hi Q).
      { apply (fold_zrange_ind P'); [unfold hi; lia| |].
        - exists tau0. cbn [fst snd]. split; [apply qinv_widen; [lia|assumption]|]. split; [intros; lia|]. split; auto.
        - intros j [X ts] Hj (tau & QJ & Ht & HX & Htau). cbn [fst snd] in *.
          destruct (geqr2_inv m n A X ts tau i hi j) as (G1 & G2 & G3); try lia; auto.
          exists (fun c => if c =? j then snd (geqr2_step lg m hi (X, ts) j) c else tau c).
          unfold f. cbn [fst snd]. split; [exact G1|]. split; [exact G2|]. split.
          + intros r c Hr Hc. rewrite G3 by lia. apply HX; assumption.
          + intros c Hc. destruct (Z.eqb_spec c j); [lia|]. apply Htau; assumption. }
      destruct G' as (tau & QJ & Ht & HX & Htau).
      set (T1 := fold_left (fun T j => memo ib k (larft_step m i (fst Q) (snd Q) T j)) (zrange i hi) T0).
      destruct (larft_inv m i sb ib k (fst Q) (snd Q) T0) as [L1 L2]; try lia. fold hi in L1, L2. fold T1 in L1, L2.
      assert (TG : t_good N m (v_unit (fst Q)) tau i T1 sb).
      { eapply t_good_cong; [| | |exact L1]; auto. }
      set (X2 := memo m n (fun r c => if hi <=? c then larfb_left PlasmaConjTrans m i sb (fst Q) T1 (fst Q) r c else fst Q r c)).
      exists tau. change (i + Z.min ib (k - i)) with hi. cbn [fst snd].
      assert (X2lo : forall r c, 0 <= r < m -> 0 <= c < hi -> X2 r c = fst Q r c).
      { intros r c Hr Hc. unfold X2. rewrite memo_in by lia. destruct (Z.leb_spec hi c); [lia|reflexivity]. }
      assert (X2hi : forall r c, 0 <= r < m -> hi <= c < n -> X2 r c = hC N m (v_unit (fst Q)) tau i hi (colv N (fst Q) c) r).
      { intros r c Hr Hc. unfold X2. rewrite memo_in by lia. destruct (Z.leb_spec hi c); [|lia].
        apply larfb_left_C; try lia. assumption. }
      split.
      + apply (qinv_cong m n A (v_unit (fst Q)) (v_unit X2) tau tau (rview hi X2)); auto; try lia.
        { intros c r Hc Hr. apply v_unit_cong. symmetry. apply X2lo; assumption. }
        apply (qinv_block N m n A (v_unit (fst Q)) tau (rview hi (fst Q)) i hi); try lia; auto.
        * intros c r Hc Hr. apply rview_cong. apply X2lo; assumption.
        * intros c r Hc Hr. unfold rview at 1. destruct (Z.ltb_spec c hi); [lia|]. cbn [andb].
          rewrite X2hi by assumption. apply hC_cong; auto. intros s Hs. unfold colv, rview.
          destruct (Z.ltb_spec c hi); [lia|]. reflexivity.
      + intros i' Hi' Hm'. destruct (Z.eq_dec i' i) as [->|D].
        * fold sb. eapply t_good_cong; [| | |exact TG]; auto.
          intros c r Hc Hr. apply v_unit_cong. symmetry. apply X2lo; unfold hi in *; lia.
        * assert (L : i' < i).
          { apply Z.mod_divide in Hmod, Hm'; try lia. destruct Hmod as [q1 ->]. destruct Hm' as [q2 ->].
            assert (q2 <= q1) by (unfold hi, sb in *; nia). nia. }
          assert (L2' : i' + Z.min ib (k - i') <= i).
          { apply Z.mod_divide in Hmod, Hm'; try lia. destruct Hmod as [q1 ->]. destruct Hm' as [q2 ->]. assert (q2 + 1 <= q1) by nia. assert (q2 * ib + ib <= q1 * ib) by nia. lia. }
          eapply t_good_cong; [| | |exact (HG i' ltac:(lia) Hm')].
          -- intros c r Hc Hr. apply v_unit_cong. rewrite X2lo by (unfold hi in *; lia). symmetry. apply HX; lia.
          -- intros c Hc. symmetry. apply Htau. lia.
          -- intros a c Ha Hc. symmetry. apply L2; lia.
  Qed.
End Ker.
