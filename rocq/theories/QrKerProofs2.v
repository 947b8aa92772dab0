(* The kernel tsqrt, and the kernels that multiply by the reflectors. *)
From Coq Require Import ZArith List Ring Bool Lia.
From Verif Require Import Base NumModel NumProofs MatModel QrModel QrSpec QrAlgProofs QrStepProofs QrKerProofs.
Import ListNotations.
Open Scope Z_scope.

Section Ts.
  Variable N : numbers.
  Add Ring ts_ring : (nring N).
  Local Notation vec := (Z -> N).

  (* two tiles on top of one another; the reflectors of tsqrt *)
  Definition stk (k : Z) (A1 A2 : Z -> Z -> N) (r c : Z) : N := if r <? k then A1 r c else A2 (r - k) c.
  Definition vst (k : Z) (V : Z -> Z -> N) : Z -> Z -> N := stk k (fun r c => ee N c r) V.
  Definition upper (A : Z -> Z -> N) (r c : Z) : N := if r <=? c then A r c else n0.

  Lemma stk_lo : forall k A1 A2 r c, r < k -> stk k A1 A2 r c = A1 r c.
  Proof. intros. unfold stk. destruct (Z.ltb_spec r k); [reflexivity|lia]. Qed.
  Lemma stk_hi : forall k A1 A2 r c, k <= r -> stk k A1 A2 r c = A2 (r - k) c.
  Proof. intros. unfold stk. destruct (Z.ltb_spec r k); [lia|reflexivity]. Qed.
  Lemma ee_same : forall i, ee N i i = n1.
  Proof. intros. unfold ee. rewrite Z.eqb_refl. reflexivity. Qed.
  Lemma ee_diff : forall i r, r <> i -> ee N i r = n0.
  Proof. intros. unfold ee. destruct (Z.eqb_spec r i); [contradiction|reflexivity]. Qed.

  Lemma dot_vst : forall k m V c (y : vec), 0 <= c < k -> 0 <= m ->
    dot N (k + m) (colv N (vst k V) c) y = nadd (y c) (nsum (fun s => nmul (nconj (V s c)) (y (k + s))) 0 m).
  Proof.
    intros k m V c y Hc Hm. rewrite (dot_pivot N (k + m) k c) by
      (try lia; intros r Hr D; unfold colv, vst; rewrite stk_lo by lia; apply ee_diff; assumption).
    unfold colv at 1. unfold vst at 1. rewrite stk_lo, ee_same, nconj_1 by lia.
    replace (k + m - k) with m by lia. f_equal; [ring|]. apply nsum_ext. intros s Hs. unfold colv, vst.
    rewrite stk_hi by lia. replace (k + s - k) with s by lia. reflexivity.
  Qed.

  (* ------------------------------------------------------------------ tsmqr *)

  Lemma parfb_left_lo : forall trans m2 i0 kb k V T A1 A2 r c, 0 <= i0 -> 0 <= kb -> i0 + kb <= k -> 0 <= m2 ->
    0 <= r < k ->
    parfb_left1 trans m2 i0 kb V T A1 A2 r c =
      (if trans =? PlasmaNoTrans then wN N (k + m2) (vst k V) i0 T kb (colv N (stk k A1 A2) c) r
       else wC N (k + m2) (vst k V) i0 T kb (colv N (stk k A1 A2) c) r).
  Proof.
    intros trans m2 i0 kb k V T A1 A2 r c Hi Hkb Hk Hm Hr.
    assert (W : forall b, 0 <= b < kb -> parfb_w_left m2 i0 V A1 A2 b c
                = dot N (k + m2) (colv N (vst k V) (i0 + b)) (colv N (stk k A1 A2) c)).
    { intros b Hb. rewrite dot_vst by lia. unfold parfb_w_left, colv. rewrite stk_lo by lia. f_equal.
      apply nsum_ext. intros s Hs. rewrite stk_hi by lia. replace (k + s - k) with s by lia. reflexivity. }
    assert (S : forall g : vec, nsum (fun a => nmul (vst k V r (i0 + a)) (g a)) 0 kb
              = if (i0 <=? r) && (r <? i0 + kb) then g (r - i0) else n0).
    { intros g. transitivity (nsum (fun a => nmul (ee N (r - i0) a) (g a)) 0 kb).
      - apply nsum_ext. intros a Ha. f_equal. unfold vst. rewrite stk_lo by lia. unfold ee.
        destruct (Z.eqb_spec r (i0 + a)), (Z.eqb_spec a (r - i0)); try reflexivity; lia.
      - destruct (Z.leb_spec i0 r); [destruct (Z.ltb_spec r (i0 + kb))|]; cbn [andb].
        + apply nsum_ee. lia.
        + apply nsum_0. intros a Ha. rewrite ee_diff by lia. ring.
        + apply nsum_0. intros a Ha. rewrite ee_diff by lia. ring. }
    unfold parfb_left1.
    destruct (Z.eqb_spec trans PlasmaNoTrans) as [->|D]; [unfold wN|unfold wC]; rewrite S;
      unfold colv at 1; rewrite stk_lo by lia;
      destruct ((i0 <=? r) && (r <? i0 + kb)); try ring; f_equal; apply nsum_ext; intros b Hb; rewrite W by lia;
      [rewrite t_op_N|rewrite t_op_C by assumption]; reflexivity.
  Qed.

  Lemma parfb_left_hi : forall trans m2 i0 kb k V T A1 A2 r c, 0 <= i0 -> 0 <= kb -> i0 + kb <= k -> 0 <= m2 ->
    0 <= r ->
    parfb_left2 trans m2 i0 kb V T A1 A2 r c =
      (if trans =? PlasmaNoTrans then wN N (k + m2) (vst k V) i0 T kb (colv N (stk k A1 A2) c) (k + r)
       else wC N (k + m2) (vst k V) i0 T kb (colv N (stk k A1 A2) c) (k + r)).
  Proof.
    intros trans m2 i0 kb k V T A1 A2 r c Hi Hkb Hk Hm Hr.
    assert (W : forall b, 0 <= b < kb -> parfb_w_left m2 i0 V A1 A2 b c
                = dot N (k + m2) (colv N (vst k V) (i0 + b)) (colv N (stk k A1 A2) c)).
    { intros b Hb. rewrite dot_vst by lia. unfold parfb_w_left, colv. rewrite stk_lo by lia. f_equal.
      apply nsum_ext. intros s Hs. rewrite stk_hi by lia. replace (k + s - k) with s by lia. reflexivity. }
    unfold parfb_left2.
    destruct (Z.eqb_spec trans PlasmaNoTrans) as [->|D]; [unfold wN|unfold wC];
      unfold colv at 1; rewrite stk_hi by lia; replace (k + r - k) with r by lia; f_equal;
      apply nsum_ext; intros a Ha; (f_equal; [unfold vst; rewrite stk_hi by lia; f_equal; lia|]);
      apply nsum_ext; intros b Hb; rewrite W by lia;
      [rewrite t_op_N|rewrite t_op_C by assumption]; reflexivity.
  Qed.

  (* ------------------------------------------------------------------ tsqrt *)

  Variable lg : N -> list N -> N * N * list N.
  Hypothesis LG : larfg_ok lg.

  Definition tview (n j : Z) (A1 A2 : Z -> Z -> N) : Z -> Z -> N :=
    stk n (upper A1) (fun r c => if c <? j then n0 else A2 r c).

  Lemma tsqrt_inv : forall m n ib A0 A1 A2 T tau i sb j, 0 <= i <= j -> j < i + sb -> i + sb <= n -> 0 <= m ->
    sb <= ib ->
    qinv N (n + m) n A0 (vst n A2) tau (tview n j A1 A2) i (i + sb) j ->
    t_good N (n + m) (vst n A2) tau i T (j - i) ->
    exists B1 B2 T1 t, tsqrt_step lg m i sb (A1, A2, T) j = (B1, B2, T1) /\
    let C1 := memo n n B1 in let C2 := memo m n B2 in let T2 := memo ib n T1 in
    let tau' c := if c =? j then t else tau c in
    qinv N (n + m) n A0 (vst n C2) tau' (tview n (j + 1) C1 C2) i (i + sb) (j + 1) /\
    t_good N (n + m) (vst n C2) tau' i T2 (j + 1 - i) /\
    (forall r c, 0 <= r < m -> 0 <= c < j -> C2 r c = A2 r c) /\
    (forall a c, 0 <= a < ib -> 0 <= c < j -> T2 a c = T a c).
  Proof.
    intros m n ib A0 A1 A2 T tau i sb j Hi Hj Hn Hm Hsb QI TI. unfold tsqrt_step.
    destruct (lg (A1 j j) (map (fun r => A2 r j) (zrange 0 m))) as [[beta t] v] eqn:E.
    eexists _, _, _, t. split; [reflexivity|]. cbv zeta.
    match goal with |- qinv _ _ _ _ (vst n ?c2) _ (tview n _ ?c1 _) _ _ _ /\ t_good _ _ _ _ _ ?t2 _ /\ _ =>
      set (C1 := c1); set (C2 := c2); set (T2 := t2) end.
    set (tau' := fun c => if c =? j then t else tau c).
    set (u := fun r => if r <? n then ee N j r else nth (Z.to_nat (r - n)) v n0).
    assert (LE : Z.of_nat (length (map (fun r => A2 r j) (zrange 0 m))) = m).
    { rewrite map_length. rewrite length_zrange by lia. lia. }
    assert (ulo : forall r, r < n -> u r = ee N j r).
    { intros r Hr. unfold u. destruct (Z.ltb_spec r n); [reflexivity|lia]. }
    assert (uhi : forall r, 0 <= r -> u (n + r) = nth (Z.to_nat r) v n0).
    { intros r Hr. unfold u. destruct (Z.ltb_spec (n + r) n); [lia|]. do 2 f_equal. lia. }
    destruct (larfg_use N lg LG _ _ _ _ _ (n + m) n j u (colv N (tview n j A1 A2) j) E) as (U1 & U2 & U3 & U4); try lia.
    { intros r Hr D. rewrite ulo by lia. apply ee_diff. assumption. }
    { rewrite ulo by lia. apply ee_same. }
    { intros k Hk. apply uhi. lia. }
    { unfold colv, tview, upper. rewrite stk_lo by lia. rewrite Z.leb_refl. reflexivity. }
    { intros k Hk. rewrite nth_zrange_map by lia. unfold colv, tview. rewrite stk_hi by lia. rewrite Z.ltb_irrefl.
      f_equal. lia. }
    assert (C2K : forall r c, 0 <= r < m -> 0 <= c < j \/ i + sb <= c < n -> C2 r c = A2 r c).
    { intros r c Hr Hc. unfold C2. rewrite memo_in by lia. destruct (Z.eqb_spec c j); [lia|].
      destruct (Z.ltb_spec j c); destruct (Z.ltb_spec c (i + sb)); cbn [andb]; try reflexivity; lia. }
    assert (C2J : forall r, 0 <= r < m -> C2 r j = u (n + r)).
    { intros r Hr. unfold C2. rewrite memo_in by lia. rewrite Z.eqb_refl. symmetry. apply uhi. lia. }
    assert (C1K : forall r c, 0 <= r < n -> 0 <= c < n -> r <> j \/ c < j \/ i + sb <= c -> C1 r c = A1 r c).
    { intros r c Hr Hc D. unfold C1. rewrite memo_in by lia.
      destruct (Z.eqb_spec r j); cbn [andb]; [|reflexivity].
      destruct (Z.eqb_spec c j); [lia|].
      destruct (Z.ltb_spec j c); cbn [andb]; [|reflexivity].
      destruct (Z.ltb_spec c (i + sb)); [lia|reflexivity]. }
    assert (VJ : forall r, 0 <= r < n + m -> vst n C2 r j = u r).
    { intros r Hr. unfold vst. destruct (Z.ltb_spec r n).
      - rewrite stk_lo by lia. rewrite ulo by lia. reflexivity.
      - rewrite stk_hi by lia. rewrite C2J by lia. f_equal. lia. }
    assert (VK : forall r c, 0 <= r < n + m -> 0 <= c < j -> vst n C2 r c = vst n A2 r c).
    { intros r c Hr Hc. unfold vst. destruct (Z.ltb_spec r n).
      - rewrite !stk_lo by lia. reflexivity.
      - rewrite !stk_hi by lia. apply C2K; lia. }
    assert (T2K : forall a c, 0 <= a < ib -> 0 <= c < j -> T2 a c = T a c).
    { intros a c Ha Hc. unfold T2. rewrite memo_in by lia. destruct (Z.eqb_spec c j); [lia|reflexivity]. }
    assert (TJ : tau' j = t) by (unfold tau'; rewrite Z.eqb_refl; reflexivity).
    assert (TK : forall c, c <> j -> tau' c = tau c).
    { intros c D. unfold tau'. destruct (Z.eqb_spec c j); [contradiction|reflexivity]. }
    assert (DW : forall c, j < c < i + sb -> dot N (n + m) u (colv N (tview n j A1 A2) c)
        = nadd (A1 j c) (nsum (fun s => nmul (A2 s c) (nconj (nth (Z.to_nat s) v n0))) 0 m)).
    { intros c Hc. rewrite (dot_pivot N (n + m) n j) by
        (try lia; intros r Hr D; rewrite ulo by lia; apply ee_diff; assumption).
      rewrite ulo, ee_same, nconj_1 by lia. replace (n + m - n) with m by lia.
      unfold colv, tview, upper. rewrite stk_lo by lia. destruct (Z.leb_spec j c); [|lia].
      f_equal; [ring|]. apply nsum_ext. intros s Hs. rewrite uhi by lia. rewrite stk_hi by lia.
      destruct (Z.ltb_spec c j); [lia|]. replace (n + s - n) with s by lia. ring. }
    split; [|split; [|split]]; [| |auto|auto].
    - apply (qinv_step N (n + m) n A0 (vst n A2) tau (tview n j A1 A2) i (i + sb) j); auto; try lia.
      + intros c Hc. apply TK. lia.
      + intros r Hr. unfold vst. rewrite stk_lo by lia. apply ee_diff. lia.
      + rewrite TJ. unfold unit_cond in *. rewrite U1. f_equal.
        apply dot_ext; intros r Hr; unfold colv; symmetry; apply VJ; assumption.
      + intros c r Hc Hr. rewrite TJ.
        transitivity (hh N (n + m) (nconj t) u (colv N (tview n j A1 A2) c) r).
        2:{ apply hh_ext; [|intros ? ?; reflexivity|assumption]. intros s Hs. unfold colv. symmetry. apply VJ. assumption. }
        destruct (Z.eq_dec c j) as [->|Hcj].
        * destruct (Z.ltb_spec r n) as [L|L].
          -- unfold tview at 1. unfold upper. rewrite stk_lo by lia. destruct (Z.eq_dec r j) as [->|D].
             ++ rewrite Z.leb_refl, U2. unfold C1. rewrite memo_in by lia. rewrite !Z.eqb_refl. reflexivity.
             ++ rewrite U4 by lia. unfold colv, tview, upper. rewrite stk_lo by lia.
                destruct (r <=? j); [|reflexivity]. apply C1K; lia.
          -- rewrite U3 by lia. unfold tview. rewrite stk_hi by lia. destruct (Z.ltb_spec j (j + 1)); [reflexivity|lia].
        * unfold hh. rewrite DW by lia. unfold colv. unfold tview, upper. destruct (Z.ltb_spec r n) as [L|L].
          -- rewrite !stk_lo by lia. rewrite ulo by lia. destruct (Z.eq_dec r j) as [->|D].
             ++ rewrite ee_same. destruct (Z.leb_spec j c); [|lia]. unfold C1. rewrite memo_in by lia.
                rewrite Z.eqb_refl. destruct (Z.eqb_spec c j); [lia|]. destruct (Z.ltb_spec j c); [|lia].
                destruct (Z.ltb_spec c (i + sb)); [|lia]. cbn [andb]. ring.
             ++ rewrite ee_diff by assumption. destruct (r <=? c); [|ring]. rewrite C1K by lia. ring.
          -- rewrite !stk_hi by lia. destruct (Z.ltb_spec c (j + 1)); [lia|]. destruct (Z.ltb_spec c j); [lia|].
             unfold C2. rewrite memo_in by lia. destruct (Z.eqb_spec c j); [lia|]. destruct (Z.ltb_spec j c); [|lia].
             destruct (Z.ltb_spec c (i + sb)); [|lia]. cbn [andb].
             replace (u r) with (nth (Z.to_nat (r - n)) v (NumModel.n0 : N)); [ring|].
             rewrite <- uhi by lia. f_equal. lia.
      + intros c r Hc Hr. unfold tview, upper. destruct (Z.ltb_spec r n) as [L|L].
        * rewrite !stk_lo by lia. destruct (r <=? c); [|reflexivity]. apply C1K; lia.
        * rewrite !stk_hi by lia. destruct Hc as [Hc|Hc].
          -- destruct (Z.ltb_spec c (j + 1)); [|lia]. destruct (Z.ltb_spec c j); [reflexivity|lia].
          -- destruct (Z.ltb_spec c (j + 1)); [lia|]. destruct (Z.ltb_spec c j); [lia|]. apply C2K; lia.
      + intros r Hr. unfold tview, upper. destruct (Z.ltb_spec r n) as [L|L].
        * rewrite stk_lo by lia. destruct (Z.leb_spec r j); [lia|reflexivity].
        * rewrite stk_hi by lia. destruct (Z.ltb_spec j (j + 1)); [reflexivity|lia].
    - assert (CG : t_good N (n + m) (vst n C2) tau' i T2 (j - i)).
      { eapply t_good_cong; [| | |exact TI].
        - intros c r Hc Hr. symmetry. apply VK; lia.
        - intros c Hc. symmetry. apply TK. lia.
        - intros a c Ha Hc. symmetry. apply T2K; lia. }
      intros c Hc. destruct (Z.eq_dec c (j - i)) as [->|D]; [|apply CG; lia].
      replace (i + (j - i)) with j by lia. split.
      + rewrite TJ. unfold T2. rewrite memo_in by lia. rewrite !Z.eqb_refl. reflexivity.
      + intros a Ha. rewrite tu_mask by lia. unfold T2 at 1. rewrite memo_in by lia. rewrite Z.eqb_refl.
        destruct (Z.eqb_spec a (j - i)); [lia|]. apply nsum_ext. intros b Hb.
        f_equal; [symmetry; apply T2K; lia|]. rewrite TJ. f_equal. rewrite dot_vst by lia.
        unfold colv. rewrite VJ by lia. rewrite ulo by lia.
        rewrite ee_diff by lia. transitivity (nsum (fun s => nmul (nconj (C2 s (i + b))) (vst n C2 (n + s) j)) 0 m); [|ring].
        apply nsum_ext. intros s Hs. rewrite VJ by lia. rewrite uhi by lia. rewrite C2K by lia. reflexivity.
  Qed.

  Lemma parfb_upper : forall trans m2 i0 kb V T B1 B2 r c, 0 <= kb -> i0 + kb <= c ->
    upper (parfb_left1 trans m2 i0 kb V T B1 B2) r c = parfb_left1 trans m2 i0 kb V T (upper B1) B2 r c.
  Proof.
    intros trans m2 i0 kb V T B1 B2 r c Hk Hc. unfold upper at 1. unfold parfb_left1.
    destruct (Z.leb_spec i0 r); [destruct (Z.ltb_spec r (i0 + kb))|]; cbn [andb].
    - destruct (Z.leb_spec r c); [|lia]. f_equal.
      + unfold upper. destruct (Z.leb_spec r c); [reflexivity|lia].
      + apply nsum_ext. intros b Hb. f_equal. unfold parfb_w_left. f_equal. unfold upper.
        destruct (Z.leb_spec (i0 + b) c); [reflexivity|lia].
    - reflexivity.
    - reflexivity.
  Qed.

  Lemma vst_low : forall k V r c, r < c -> c < k -> vst k V r c = n0.
  Proof. intros. unfold vst. rewrite stk_lo by lia. apply ee_diff. lia. Qed.

  Lemma tsqrt_spec : forall m n ib A1 A2, 0 < ib -> 0 <= m -> 0 <= n ->
    let R := tsqrt_mat lg m n ib A1 A2 in
    factored N (n + m) n n ib (stk n (upper A1) A2) (vst n (snd (fst R)))
      (stk n (upper (fst (fst R))) (fun _ _ => n0)) (snd R).
  Proof.
    intros m n ib A1 A2 Hib Hm Hn. cbv zeta. set (A := stk n (upper A1) A2).
    pose (P := fun (i : Z) (S : (Z -> Z -> N) * (Z -> Z -> N) * (Z -> Z -> N)) => exists tau : vec,
       qinv N (n + m) n A (vst n (snd (fst S))) tau (tview n i (fst (fst S)) (snd (fst S))) i i i /\
       all_good N (n + m) (vst n (snd (fst S))) tau (snd S) ib n i).
    assert (G : P n (tsqrt_mat lg m n ib A1 A2)).
    2:{ destruct G as (tau & (Q1 & Q2 & Q3 & Q4) & HG). exists tau. split; [assumption|]. split; [|assumption].
        intros r c Hr Hc. etransitivity; [symmetry; apply Q2; lia|]. unfold tview, stk.
        destruct (r <? n); [reflexivity|]. destruct (Z.ltb_spec c n); [reflexivity|lia]. }
    unfold tsqrt_mat. apply (blocks_ind P); [assumption|assumption| |].
    - exists (fun _ => n0). cbn [fst snd]. split; [|intros i Hi; lia].
      split; [intros; lia|]. split; [intros; lia|]. split; [|intros; lia].
      intros c r Hc Hr. rewrite hC_nil by lia. unfold A, tview, colv, stk. destruct (r <? n); [reflexivity|].
      destruct (Z.ltb_spec c 0); [lia|reflexivity].
    - intros i [[X0 Y0] T0] Hi Hmod (tau0 & QI & HG). cbn [fst snd] in *. cbv zeta.
      replace (Z.min (n - i) ib) with (Z.min ib (n - i)) by lia.
      set (sb := Z.min ib (n - i)). set (hi := i + sb).
      assert (Hsb : 0 < sb <= ib) by (unfold sb; lia).
      assert (Hhi : hi <= n) by (unfold hi, sb; lia).
      pose (P' := fun (j : Z) (S : (Z -> Z -> N) * (Z -> Z -> N) * (Z -> Z -> N)) => exists tau : vec,
        qinv N (n + m) n A (vst n (snd (fst S))) tau (tview n j (fst (fst S)) (snd (fst S))) i hi j /\
        t_good N (n + m) (vst n (snd (fst S))) tau i (snd S) (j - i) /\
        (forall r c, 0 <= r < m -> 0 <= c < i -> snd (fst S) r c = Y0 r c) /\
        (forall a c, 0 <= a < ib -> 0 <= c < i -> snd S a c = T0 a c) /\
        (forall c, 0 <= c < i -> tau c = tau0 c)).
      match goal with |- context [fold_left ?g (zrange i hi) ?s] => set (Q := fold_left g (zrange i hi) s) end.
      assert (G' : P' hi Q).
      { apply (fold_zrange_ind P'); [unfold hi; lia| |].
        - exists tau0. cbn [fst snd]. split; [apply qinv_widen; [lia|assumption]|]. split; [intros c Hc; lia|]. auto.
        - intros j [[X Y] T] Hj (tau & QJ & TJ & HY & HT & Htau). cbn [fst snd] in *.
          destruct (tsqrt_inv m n ib A X Y T tau i sb j) as (B1 & B2 & T1 & t & E & G1 & G2 & G3 & G4); try lia; auto.
          rewrite E. exists (fun c => if c =? j then t else tau c). cbn [fst snd].
          split; [exact G1|]. split; [exact G2|]. split; [|split].
          + intros r c Hr Hc. rewrite G3 by lia. apply HY; assumption.
          + intros a c Ha Hc. rewrite G4 by lia. apply HT; assumption.
          + intros c Hc. destruct (Z.eqb_spec c j); [lia|]. apply Htau; assumption. }
      clearbody Q. destruct Q as [[B1 B2] T1]. cbv beta iota.
      destruct G' as (tau & QJ & TG & HY & HT & Htau). cbn [fst snd] in *.
      replace (hi - i) with sb in TG by (unfold hi; lia).
      match goal with |- P hi (?c1, ?c2, _) => set (C1 := c1); set (C2 := c2) end.
      exists tau. cbn [fst snd].
      assert (C2lo : forall r c, 0 <= r < m -> 0 <= c < hi -> C2 r c = B2 r c).
      { intros r c Hr Hc. unfold C2. rewrite memo_in by lia. destruct (Z.leb_spec hi c); [lia|reflexivity]. }
      assert (C1lo : forall r c, 0 <= r < n -> 0 <= c < hi -> C1 r c = B1 r c).
      { intros r c Hr Hc. unfold C1. rewrite memo_in by lia. destruct (Z.leb_spec hi c); [lia|reflexivity]. }
      assert (Vlo : forall r c, 0 <= r < n + m -> 0 <= c < hi -> vst n C2 r c = vst n B2 r c).
      { intros r c Hr Hc. unfold vst, stk. destruct (Z.ltb_spec r n); [reflexivity|]. apply C2lo; lia. }
      assert (NB : (PlasmaConjTrans =? PlasmaNoTrans) = false) by reflexivity.
      assert (Xhi : forall r c, 0 <= r < n + m -> hi <= c < n ->
                tview n hi C1 C2 r c = hC N (n + m) (vst n B2) tau i hi (colv N (tview n hi B1 B2) c) r).
      { intros r c Hr Hc.
        assert (S : forall s, 0 <= s < n + m -> colv N (tview n hi B1 B2) c s = colv N (stk n (upper B1) B2) c s).
        { intros s Hs. unfold colv, tview, stk. destruct (s <? n); [reflexivity|].
          destruct (Z.ltb_spec c hi); [lia|reflexivity]. }
        transitivity (wC N (n + m) (vst n B2) i T1 sb (colv N (stk n (upper B1) B2) c) r).
        - unfold tview. destruct (Z.ltb_spec r n) as [L|L].
          + rewrite stk_lo by lia.
            transitivity (upper (parfb_left1 PlasmaConjTrans m i sb B2 T1 B1 B2) r c).
            * unfold upper. destruct (r <=? c); [|reflexivity]. unfold C1. rewrite memo_in by lia.
              destruct (Z.leb_spec hi c); [reflexivity|lia].
            * rewrite parfb_upper by (unfold hi in *; lia). rewrite (parfb_left_lo _ _ _ _ n) by (unfold hi in *; lia).
              rewrite NB. reflexivity.
          + rewrite stk_hi by lia. destruct (Z.ltb_spec c hi); [lia|]. unfold C2. rewrite memo_in by lia.
            destruct (Z.leb_spec hi c); [|lia].
            transitivity (parfb_left2 PlasmaConjTrans m i sb B2 T1 (upper B1) B2 (r - n) c).
            * unfold parfb_left2. f_equal. apply nsum_ext. intros a Ha. f_equal. apply nsum_ext. intros b Hb. f_equal.
              unfold parfb_w_left. f_equal. unfold upper. destruct (Z.leb_spec (i + b) c); [reflexivity|unfold hi in *; lia].
            * rewrite (parfb_left_hi _ _ _ _ n) by (unfold hi in *; lia). rewrite NB. f_equal. lia.
        - etransitivity; [apply wC_h; try lia; exact TG|].
          apply hC_cong; auto. intros s Hs. symmetry. apply S. assumption. }
      split.
      + apply (qinv_cong N (n + m) n A (vst n B2) (vst n C2) tau tau (tview n hi C1 C2)); auto; try lia.
        { intros c r Hc Hr. symmetry. apply Vlo; assumption. }
        apply (qinv_block N (n + m) n A (vst n B2) tau (tview n hi B1 B2) i hi); try lia; auto.
        intros c r Hc Hr. unfold tview, upper, stk. destruct (Z.ltb_spec r n).
        * destruct (r <=? c); [|reflexivity]. apply C1lo; lia.
        * destruct (Z.ltb_spec c hi); [reflexivity|lia].
      + intros i' Hi' Hm'. destruct (Z.eq_dec i' i) as [->|D].
        * fold sb. eapply t_good_cong; [| | |exact TG]; auto.
          intros c r Hc Hr. symmetry. apply Vlo; unfold hi in *; lia.
        * assert (L : i' < i).
          { apply Z.mod_divide in Hmod, Hm'; try lia. destruct Hmod as [q1 ->]. destruct Hm' as [q2 ->].
            assert (q2 <= q1) by (unfold hi, sb in *; nia). nia. }
          assert (L2' : i' + Z.min ib (n - i') <= i).
          { apply Z.mod_divide in Hmod, Hm'; try lia. destruct Hmod as [q1 ->]. destruct Hm' as [q2 ->].
            assert (q2 + 1 <= q1) by nia. assert (q2 * ib + ib <= q1 * ib) by nia. lia. }
          eapply t_good_cong; [| | |exact (HG i' ltac:(lia) Hm')].
          -- intros c r Hc Hr. rewrite Vlo by (unfold hi in *; lia). unfold vst, stk.
             destruct (Z.ltb_spec r n); [reflexivity|]. symmetry. apply HY; lia.
          -- intros c Hc. symmetry. apply Htau. lia.
          -- intros a c Ha Hc. symmetry. apply HT; lia.
  Qed.
End Ts.
