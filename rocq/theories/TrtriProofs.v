(* The inversion of a triangular matrix: the loops. *)
From Coq Require Import ZArith List Bool Lia Ring.
From Verif Require Import Base NumModel NumProofs FieldModel TaskModel TaskSpec TaskProofs DescModel DescSpec
  DescDriverModel DescProofs DescPackProofs DescProofs3 DescProofs4 MatModel MatSpec MatProofs RegionProofs
  GuardModel GuardSpec GuardProofs GuardProofs2
  LayoutModel LayoutProofs LayoutProofs2 DriverModel DriverSpec OpProofs SimProofs OperandProofs
  GemmModel GemmProofs GemmDriverProofs RankModel RankProofs RankDriverProofs LasetModel LasetProofs
  TriModel TriSpec TriVecProofs TriProofs TrmmProofs TrsmProofs PotrfModel CholProofs PotrfProofs InvProofs ViewProofs TrtriModel TrtriTaskProofs TrtriStepProofs.
Import ListNotations.
Open Scope Z_scope.

Section Blocks.
  Context {F : fields}.
  Add Ring num_ring_trtri_blocks : (nring F).
  Variables (nb n : Z) (T : Z -> Z -> F).
  Hypothesis Hb : 0 < nb.
  Hypothesis HD : forall i, 0 <= i < n -> T i i <> n0.
  Hypothesis HL : forall i l, 0 <= i < n -> i < l < n -> T i l = n0.
  Local Notation X := (inverse n T).

  Definition PP (k i j : Z) : F := nopp (nsum (fun l => nmul (T i l) (X l j)) 0 (k * nb)).

  Lemma nsum_off : forall (f : Z -> F) o a b, nsum (fun l => f (o + l)) a b = nsum f (o + a) (o + b).
  Proof.
    intros f o a b. rewrite (Z.add_comm o a), (Z.add_comm o b), nsum_shift. apply nsum_ext. intros l _.
    rewrite (Z.add_comm l). reflexivity.
  Qed.

  Lemma nsum_off0 : forall (f : Z -> F) o b, nsum f o (o + b) = nsum (fun l => f (o + l)) 0 b.
  Proof. intros f o b. rewrite nsum_off, Z.add_0_r. reflexivity. Qed.

  Lemma xt_cut : forall q r lo hi, 0 <= q < hi -> 0 <= lo <= r -> r < hi -> hi <= n ->
    nsum (fun c => nmul (X q c) (T c r)) lo hi = delta q r.
  Proof.
    intros q r lo hi Hq Hlo Hr Hhi. rewrite <- (inverse_l n T HD HL q r) by lia.
    rewrite (nsum_app _ _ 0 lo n) by lia. rewrite (nsum_app _ _ lo hi n) by lia.
    rewrite (nsum_0 _ _ 0 lo), (nsum_0 _ _ hi n).
    - ring.
    - intros c Hc. rewrite (inverse_low n T HD HL) by lia. ring.
    - intros c Hc. rewrite HL by lia. ring.
  Qed.

  Lemma tx_cut : forall r j lo hi, 0 <= r < hi -> 0 <= lo <= j -> j < hi -> hi <= n ->
    nsum (fun c => nmul (T r c) (X c j)) lo hi = delta r j.
  Proof.
    intros r j lo hi Hr Hlo Hj Hhi. rewrite <- (inverse_r n T HD HL r j) by lia.
    rewrite (nsum_app _ _ 0 lo n) by lia. rewrite (nsum_app _ _ lo hi n) by lia.
    rewrite (nsum_0 _ _ 0 lo), (nsum_0 _ _ hi n).
    - ring.
    - intros c Hc. rewrite HL by lia. ring.
    - intros c Hc. rewrite (inverse_low n T HD HL) by lia. ring.
  Qed.

  Lemma PP_T : forall k i r lo, 0 <= k -> (k + 1) * nb <= n -> 0 <= lo <= r -> r < (k + 1) * nb ->
    nsum (fun c => nmul (PP (k + 1) i c) (T c r)) lo ((k + 1) * nb) = nopp (T i r).
  Proof.
    intros k i r lo Hk Hkn Hlo Hr. unfold PP.
    rewrite (nsum_ext F _ (fun c => nsum (fun q => nmul (nopp (T i q)) (nmul (X q c) (T c r))) 0 ((k + 1) * nb))).
    - rewrite nsum_swap. rewrite (nsum_ext F _ (fun q => nmul (nopp (T i q)) (delta q r))).
      + apply (nsum_delta_r (fun q => nopp (T i q)) r). lia.
      + intros q Hq. rewrite nsum_mul_l. rewrite xt_cut by lia. reflexivity.
    - intros c _. transitivity (nmul (nopp n1) (nmul (nsum (fun q => nmul (T i q) (X q c)) 0 ((k + 1) * nb)) (T c r))); [ring|].
      rewrite <- nsum_mul_r, <- nsum_mul_l. apply nsum_ext. intros q _. ring.
  Qed.

  Lemma PP_tile : forall k r j hi, 0 <= k -> k * nb <= r -> r < hi -> hi <= n -> 0 <= j < k * nb ->
    nsum (fun c => nmul (T r c) (X c j)) (k * nb) hi = PP k r j.
  Proof.
    intros k r j hi Hk Hr Hr2 Hhi Hj. pose proof (tx_cut r j 0 hi ltac:(lia) ltac:(lia) ltac:(lia) Hhi) as E.
    unfold delta in E. replace (r =? j) with false in E by (symmetry; apply Z.eqb_neq; lia).
    rewrite (nsum_app _ _ 0 (k * nb) hi) in E by lia. unfold PP.
    match goal with |- ?b = nopp ?a => transitivity (nadd (nopp a) (nadd a b)); [ring|] end. rewrite E. ring.
  Qed.

  Lemma PP_step : forall k i j, 0 <= k -> (k + 1) * nb <= n -> 0 <= j < k * nb ->
    PP (k + 1) i j = nadd (PP k i j) (nsum (fun c => nmul (PP (k + 1) i c) (PP k c j)) (k * nb) ((k + 1) * nb)).
  Proof.
    intros k i j Hk Hkn Hj.
    rewrite (nsum_ext F _ (fun c => nsum (fun q => nmul (nmul (PP (k + 1) i c) (T c q)) (X q j)) (k * nb) ((k + 1) * nb))).
    - rewrite nsum_swap. rewrite (nsum_ext F _ (fun q => nmul (nopp n1) (nmul (T i q) (X q j)))).
      + rewrite nsum_mul_l. unfold PP. rewrite (nsum_app _ _ 0 (k * nb) ((k + 1) * nb)) by nia. ring.
      + intros q Hq. rewrite nsum_mul_r. rewrite PP_T by lia. ring.
    - intros c Hc. rewrite <- (PP_tile k c j ((k + 1) * nb)) by lia. rewrite <- nsum_mul_l. apply nsum_ext. intros q _. ring.
  Qed.

  Lemma PP_first : forall k i j, 0 <= k -> 0 <= j <= n -> k * nb <= j -> PP k i j = n0.
  Proof.
    intros k i j Hk Hj Hkj. unfold PP. rewrite (nsum_0 _ _ 0 (k * nb)); [ring|].
    intros l Hl. rewrite (inverse_low n T HD HL) by lia. ring.
  Qed.
End Blocks.

Section Loops.
  Context {F : fields}.
  Add Ring num_ring_trtri_loops : (nring F).
  Variables (nb n : Z) (A : desc) (SA : Z -> Z -> Prop) (bA uplo diag : Z).
  Hypothesis Hu : valid_uplo uplo.
  Hypothesis HQ : sq nb A SA.
  Hypotheses (DM : d_m A = n) (DN : d_n A = n).
  Let nt := ntl nb n.
  Hypothesis HSA : forall i j, 0 <= i < nt -> 0 <= j < nt -> uplo_sel uplo i j = true -> SA i j.
  Let Hb : 0 < nb := sq_pos nb A _ HQ.
  Let Hn : 0 <= n.
  Proof. rewrite <- DM. apply (go_m A (td_shape _ _ (sq_t nb A _ HQ))). Qed.

  Local Notation low := (vlow uplo).
  Local Notation tm := (vr uplo).
  Local Notation tn := (vc uplo).
  Local Notation tp := (vp A bA uplo).
  Local Notation tl := (vl A uplo).
  Local Notation rel := (vrel nb n A bA uplo).
  Local Notation stored := (vstored nb n).

  Let t_ld : forall m k, 0 <= k <= m -> m < nt -> tsz nb n (tm m k) <= tl m k.
  Proof. exact (vt_ld nb n A SA uplo Hu HQ DM HSA). Qed.
  Let t_full : forall k m, 0 <= k < m -> m < nt -> tsz nb n k = nb.
  Proof. exact (vt_full nb n A SA HQ DM). Qed.
  Let t_pos : forall k, 0 <= k < nt -> 0 < tsz nb n k <= nb.
  Proof. exact (vt_pos nb n A SA HQ DM). Qed.
  Let t_sel : forall a c, uplo_sel uplo (tm a c) (tn a c) = (c <=? a).
  Proof. exact (vsel nb n SA uplo Hu HSA). Qed.
  Let pos_el : forall m a, 0 <= m < nt -> 0 <= a < tsz nb n m ->
    0 <= m * nb + a < n /\ (m * nb + a) / nb = m /\ (m * nb + a) mod nb = a.
  Proof. exact (vpos_el nb n A SA HQ). Qed.
  Let el_pos : forall i, 0 <= i < n -> 0 <= i / nb < nt /\ 0 <= i mod nb < tsz nb n (i / nb) /\ i = i / nb * nb + i mod nb.
  Proof. exact (vel_pos nb n A SA HQ DM). Qed.

  Local Notation rtask := (@rtask F nb n A bA uplo diag).
  Local Notation utask := (@utask F nb n A bA uplo).
  Local Notation ltask := (@ltask F nb n A bA uplo diag).
  Local Notation ttask := (@ttask F nb n A bA uplo diag).
  Local Notation trest := (@trest F nb n A bA uplo diag).
  Local Notation tlist := (@tlist F nb n A bA uplo diag).
  Local Notation tk := (tk nb diag).
  Local Notation tsel := (tsel diag).
  Local Notation unit := (diag =? PlasmaUnit).

  Variable M0 : mem F.
  Variable SS : Z -> Z -> F.

  (* the triangular matrix of the view *)
  Definition TS (i j : Z) : F := if unit && (i =? j) then n1 else if j <=? i then SS i j else n0.

  Hypothesis HD : forall i, 0 <= i < n -> TS i i <> n0.
  Lemma TS_low : forall i l, 0 <= i < n -> i < l < n -> TS i l = n0.
  Proof.
    intros i l Hi Hl. unfold TS. replace (i =? l) with false by (symmetry; apply Z.eqb_neq; lia).
    rewrite andb_false_r. replace (l <=? i) with false by (symmetry; apply Z.leb_gt; lia). reflexivity.
  Qed.
  Local Notation X := (inverse n TS).
  Local Notation P := (PP nb n TS).

  (* the view in iteration k: R m, the part below tile (k,k) in tile row m has been solved;
     D m j, tile (m,j) has been updated; E j, tile (k,j) has been solved *)
  Definition XX (k : Z) (R : Z -> bool) (D : Z -> Z -> bool) (E : Z -> bool) (i j : Z) : F :=
    if tsel i j then
      if j / nb <? k then
        if i / nb <? k then X i j
        else if i / nb =? k then (if E (j / nb) then X i j else P k i j)
        else (if D (i / nb) (j / nb) then P (k + 1) i j else P k i j)
      else if (j / nb =? k) && (k <? i / nb) && R (i / nb) then P (k + 1) i j
      else SS i j
    else SS i j.

  Ltac bcase := repeat match goal with
    | |- context [?a <? ?b] => destruct (Z.ltb_spec a b)
    | |- context [?a <=? ?b] => destruct (Z.leb_spec a b)
    | |- context [?a =? ?b] => destruct (Z.eqb_spec a b)
    end; cbn [andb orb negb]; try reflexivity; try lia.

  Lemma tstored_lt : forall i j, stored i j -> 0 <= j / nb <= i / nb /\ i / nb < nt.
  Proof.
    intros i j (Hi & Hj & H). destruct (el_pos i Hi) as ((A1 & A2) & _). destruct (el_pos j Hj) as ((B1 & B2) & _). lia.
  Qed.

  Lemma tsel_off : forall m j a c, 0 <= j < m -> m < nt -> 0 <= a < tsz nb n m -> 0 <= c < tsz nb n j ->
    tsel (m * nb + a) (j * nb + c) = true.
  Proof.
    intros m j a c Hj Hm Ha Hc. pose proof (t_pos j ltac:(lia)). unfold TrtriStepProofs.tsel.
    replace (j * nb + c <=? m * nb + a) with true by (symmetry; apply Z.leb_le; nia).
    replace (m * nb + a =? j * nb + c) with false by (symmetry; apply Z.eqb_neq; nia). rewrite andb_false_r. reflexivity.
  Qed.

  Lemma tsel_lt : forall i j, j / nb < i / nb -> tsel i j = true.
  Proof.
    intros i j H. unfold TrtriStepProofs.tsel.
    assert (j < i). { destruct (Z_lt_le_dec j i); [assumption|]. pose proof (Z.div_le_mono i j nb Hb ltac:(lia)). lia. }
    replace (j <=? i) with true by (symmetry; apply Z.leb_le; lia).
    replace (i =? j) with false by (symmetry; apply Z.eqb_neq; lia). rewrite andb_false_r. reflexivity.
  Qed.

  (* the diagonal tile (k,k) in iteration k *)
  Lemma tk_XX : forall k R D E r c, 0 <= k < nt -> 0 <= r < tsz nb n k -> 0 <= c < tsz nb n k ->
    tk (XX k R D E) k r c = TS (k * nb + r) (k * nb + c).
  Proof.
    intros k R D E r c Hk Hr Hc. unfold TrtriStepProofs.tk, TS.
    replace (k * nb + r =? k * nb + c) with (r =? c) by (apply eq_true_iff_eq; rewrite !Z.eqb_eq; lia).
    destruct (unit && (r =? c)); [reflexivity|].
    replace (k * nb + c <=? k * nb + r) with (c <=? r) by (apply eq_true_iff_eq; rewrite !Z.leb_le; lia).
    destruct (c <=? r); [|reflexivity].
    destruct (pos_el k r Hk Hr) as (_ & P2 & _). destruct (pos_el k c Hk Hc) as (_ & Q2 & _).
    unfold XX. rewrite P2, Q2, Z.ltb_irrefl, Z.eqb_refl. cbn [andb]. destruct (tsel _ _); reflexivity.
  Qed.

  Lemma TS_off : forall i j, j < i -> TS i j = SS i j.
  Proof.
    intros i j H. unfold TS. replace (i =? j) with false by (symmetry; apply Z.eqb_neq; lia).
    rewrite andb_false_r. replace (j <=? i) with true by (symmetry; apply Z.leb_le; lia). reflexivity.
  Qed.

  Lemma kn : forall k m, 0 <= k < m -> m < nt -> (k + 1) * nb <= n.
  Proof. intros k m Hk Hm. apply ntl_spec in Hm; auto; [|lia]. nia. Qed.

  Ltac rdb := repeat match goal with H : ?b = true |- context [?b] => rewrite H | H : ?b = false |- context [?b] => rewrite H end.

  Lemma rtask_XX : forall k m R R' D E M, 0 <= k < m -> m < nt -> R m = false -> R' m = true ->
    (forall i, i <> m -> R' i = R i) -> rel M0 (XX k R D E) M -> rel M0 (XX k R' D E) (k_fun (rtask k m) M).
  Proof.
    intros k m R R' D E M Hk Hm R0 R1 R2 HR. pose proof (t_full k m Hk Hm) as TK. pose proof (kn k m Hk Hm) as KN.
    apply (rtask_step nb n A SA bA uplo diag Hu HQ DM DN HSA M0 (XX k R D E)); auto.
    - intros r Hr. rewrite tk_XX by lia. apply HD. apply pos_el; lia.
    - intros a r Ha Hr. destruct (pos_el m a ltac:(lia) Ha) as (Q1 & Q2 & _).
      destruct (pos_el k r ltac:(lia) ltac:(lia)) as (P1 & P2 & _).
      transitivity (nopp (TS (m * nb + a) (k * nb + r))).
      + rewrite <- (PP_T nb n TS HD TS_low k (m * nb + a) (k * nb + r) (k * nb + r)) by nia.
        replace ((k + 1) * nb) with (k * nb + nb) by lia. rewrite <- nsum_off. apply nsum_ext. intros l Hl.
        rewrite tk_XX by lia. apply f_equal2; [|reflexivity].
        destruct (pos_el k l ltac:(lia) ltac:(lia)) as (L1 & L2 & _).
        unfold XX. rewrite (tsel_off m k a l) by lia. rewrite Q2, L2, R1. rewrite Z.ltb_irrefl, Z.eqb_refl.
        replace (k <? m) with true by (symmetry; apply Z.ltb_lt; lia). reflexivity.
      + apply f_equal. rewrite TS_off by nia. unfold XX. rewrite (tsel_off m k a r) by lia. rewrite Q2, P2, R0.
        rewrite Z.ltb_irrefl, andb_false_r. reflexivity.
    - intros i j Hij HN. unfold XX. destruct (Z.eq_dec (i / nb) m) as [EI|EI].
      + replace (j / nb =? k) with false by (symmetry; apply Z.eqb_neq; lia). reflexivity.
      + rewrite R2 by assumption. reflexivity.
  Qed.

  Lemma ltask_XX : forall k j R D E E' M, 0 <= j < k -> k < nt -> E j = false -> E' j = true ->
    (forall i, i <> j -> E' i = E i) -> rel M0 (XX k R D E) M -> rel M0 (XX k R D E') (k_fun (ltask k j) M).
  Proof.
    intros k j R D E E' M Hj Hk E0 E1 E2 HR. pose proof (t_full j k Hj Hk) as TJ. pose proof (t_pos k ltac:(lia)) as TP.
    assert (KN : k * nb + tsz nb n k <= n) by (unfold tsz; lia).
    apply (ltask_step nb n A SA bA uplo diag Hu HQ DM DN HSA M0 (XX k R D E)); auto.
    - intros r Hr. rewrite tk_XX by lia. apply HD. apply pos_el; lia.
    - intros r c Hr Hc. destruct (pos_el k r ltac:(lia) Hr) as (Q1 & Q2 & _).
      destruct (pos_el j c ltac:(lia) ltac:(lia)) as (P1 & P2 & _).
      transitivity (P k (k * nb + r) (j * nb + c)).
      + rewrite <- (PP_tile nb n TS HD TS_low k (k * nb + r) (j * nb + c) (k * nb + (r + 1))) by nia.
        rewrite nsum_off0. apply nsum_ext. intros l Hl.
        rewrite tk_XX by lia. apply f_equal.
        destruct (pos_el k l ltac:(lia) ltac:(lia)) as (L1 & L2 & _).
        unfold XX. rewrite (tsel_off k j l c) by lia. rewrite L2, P2, E1. rewrite Z.ltb_irrefl, Z.eqb_refl.
        replace (j <? k) with true by (symmetry; apply Z.ltb_lt; lia). reflexivity.
      + unfold XX. rewrite (tsel_off k j r c) by lia. rewrite Q2, P2, E0. rewrite Z.ltb_irrefl, Z.eqb_refl.
        replace (j <? k) with true by (symmetry; apply Z.ltb_lt; lia). reflexivity.
    - intros i c Hic HN. unfold XX. destruct (Z.eq_dec (c / nb) j) as [EI|EI].
      + replace (i / nb =? k) with false by (symmetry; apply Z.eqb_neq; lia). reflexivity.
      + rewrite E2 by assumption. reflexivity.
  Qed.

  Lemma utask_XX : forall k m j R D D' E M, 0 <= j < k -> k < m -> m < nt -> R m = true -> E j = false ->
    D m j = false -> D' m j = true -> (forall a c, a <> m \/ c <> j -> D' a c = D a c) ->
    rel M0 (XX k R D E) M -> rel M0 (XX k R D' E) (k_fun (utask k m j) M).
  Proof.
    intros k m j R D D' E M Hj Hk Hm R1 E0 D0 D1 D2 HR.
    pose proof (t_full j m ltac:(lia) Hm) as TJ. pose proof (t_full k m ltac:(lia) Hm) as TK.
    pose proof (kn k m ltac:(lia) Hm) as KN.
    assert (LJ : (j <? k) = true) by (apply Z.ltb_lt; lia). assert (LK : (k <? m) = true) by (apply Z.ltb_lt; lia).
    assert (LM : (m <? k) = false) by (apply Z.ltb_ge; lia). assert (NM : (m =? k) = false) by (apply Z.eqb_neq; lia).
    apply (utask_step nb n A SA bA uplo Hu HQ DM DN HSA M0 (XX k R D E)); auto.
    - intros a c Ha Hc. destruct (pos_el m a ltac:(lia) Ha) as (Q1 & Q2 & _).
      destruct (pos_el j c ltac:(lia) ltac:(lia)) as (P1 & P2 & _).
      transitivity (P (k + 1) (m * nb + a) (j * nb + c)).
      + unfold XX. rewrite (tsel_off m j a c) by lia. rewrite Q2, P2, D1, LJ, LM, NM. reflexivity.
      + rewrite (PP_step nb n TS Hb HD TS_low k) by nia. apply f_equal2.
        * unfold XX. rewrite (tsel_off m j a c) by lia. rewrite Q2, P2, D0, LJ, LM, NM. reflexivity.
        * replace ((k + 1) * nb) with (k * nb + nb) by lia.
          rewrite nsum_off0. apply nsum_ext. intros l Hl. destruct (pos_el k l ltac:(lia) ltac:(lia)) as (L1 & L2 & _).
          unfold XX. rewrite (tsel_off m k a l), (tsel_off k j l c) by lia.
          rewrite Q2, P2, L2, R1, E0, LJ, LK, Z.ltb_irrefl, Z.eqb_refl. reflexivity.
    - intros i c Hic HN. unfold XX. destruct (Z.eq_dec (i / nb) m) as [EI|EI].
      + rewrite D2 by (right; intros EC; apply HN; auto). reflexivity.
      + rewrite D2 by (left; assumption). reflexivity.
  Qed.

  Definition none1 (_ : Z) : bool := false.
  Definition none2 (_ _ : Z) : bool := false.

  Lemma ttask_XX : forall k R D E M, 0 <= k < nt -> (forall m, k < m < nt -> R m = true) ->
    (forall m j, k < m < nt -> 0 <= j < k -> D m j = true) -> (forall j, 0 <= j < k -> E j = true) ->
    rel M0 (XX k R D E) M -> rel M0 (XX (k + 1) none1 none2 none1) (k_fun (ck_task (ttask k)) M).
  Proof.
    intros k R D E M Hk HRr HDd HEe HR. pose proof (t_pos k Hk) as TP.
    assert (KN : k * nb + tsz nb n k <= n) by (unfold tsz; lia). assert (0 <= k * nb) by nia.
    assert (KE : forall f : Z -> F, nsum f (k * nb) (k * nb + tsz nb n k) = nsum (fun l => f (k * nb + l)) 0 (tsz nb n k)).
    { intros f. rewrite nsum_off, Z.add_0_r. reflexivity. }
    apply (ttask_step nb n A SA bA uplo diag Hu HQ DM DN HSA M0 (XX k R D E)
      (XX (k + 1) none1 none2 none1) (fun a c => X (k * nb + a) (k * nb + c))); auto.
    - intros r Hr. rewrite tk_XX by lia. apply HD. apply pos_el; lia.
    - intros r c Hr Hc. 
      transitivity (delta (N := F) (k * nb + r) (k * nb + c)).
      + rewrite <- (tx_cut n TS HD TS_low (k * nb + r) (k * nb + c) (k * nb) (k * nb + tsz nb n k)) by lia.
        rewrite KE. apply nsum_ext. intros l Hl. rewrite tk_XX by lia. reflexivity.
      + unfold delta. replace (k * nb + r =? k * nb + c) with (r =? c) by (apply eq_true_iff_eq; rewrite !Z.eqb_eq; lia). reflexivity.
    - intros r c Hr Hc. 
      transitivity (delta (N := F) (k * nb + r) (k * nb + c)).
      + rewrite <- (xt_cut n TS HD TS_low (k * nb + r) (k * nb + c) (k * nb) (k * nb + tsz nb n k)) by lia.
        rewrite KE. apply nsum_ext. intros l Hl. rewrite tk_XX by lia. reflexivity.
      + unfold delta. replace (k * nb + r =? k * nb + c) with (r =? c) by (apply eq_true_iff_eq; rewrite !Z.eqb_eq; lia). reflexivity.
    - intros a c Ha Hc HS.
      assert (HS' : tsel (k * nb + a) (k * nb + c) = true).
      { rewrite <- HS. unfold TrtriStepProofs.tsel.
        replace (k * nb + a =? k * nb + c) with (a =? c) by (apply eq_true_iff_eq; rewrite !Z.eqb_eq; lia).
        replace (k * nb + c <=? k * nb + a) with (c <=? a) by (apply eq_true_iff_eq; rewrite !Z.leb_le; lia). reflexivity. }
      destruct (pos_el k a Hk Ha) as (_ & Q2 & _). destruct (pos_el k c Hk Hc) as (_ & P2 & _).
      unfold XX. rewrite HS', Q2, P2. replace (k <? k + 1) with true by (symmetry; apply Z.ltb_lt; lia). reflexivity.
    - intros i j Hij HN. pose proof (tstored_lt i j Hij) as (J1 & J2). unfold XX, none1, none2.
      destruct (tsel i j) eqn:TT; [|reflexivity]. rewrite andb_false_r.
      assert (NK : ~ (i / nb = k /\ j / nb = k)) by tauto.
      destruct (Z.ltb_spec (j / nb) k) as [L|L].
      + replace (j / nb <? k + 1) with true by (symmetry; apply Z.ltb_lt; lia).
        destruct (Z.ltb_spec (i / nb) k) as [I|I].
        * replace (i / nb <? k + 1) with true by (symmetry; apply Z.ltb_lt; lia). reflexivity.
        * destruct (Z.eqb_spec (i / nb) k) as [I2|I2].
          -- replace (i / nb <? k + 1) with true by (symmetry; apply Z.ltb_lt; lia). rewrite HEe by lia. reflexivity.
          -- replace (i / nb <? k + 1) with false by (symmetry; apply Z.ltb_ge; lia). rewrite HDd by lia.
             destruct (i / nb =? k + 1); reflexivity.
      + destruct (Z.eqb_spec (j / nb) k) as [J|J].
        * replace (j / nb <? k + 1) with true by (symmetry; apply Z.ltb_lt; lia).
          replace (i / nb <? k + 1) with false by (symmetry; apply Z.ltb_ge; lia).
          replace (k <? i / nb) with true by (symmetry; apply Z.ltb_lt; lia). rewrite HRr by lia.
          destruct (i / nb =? k + 1); reflexivity.
        * replace (j / nb <? k + 1) with false by (symmetry; apply Z.ltb_ge; lia). reflexivity.
  Qed.

  Definition upto (m i : Z) : bool := i <? m.
  Definition all1 (_ : Z) : bool := true.
  Definition all2 (_ _ : Z) : bool := true.

  Lemma XX_ext : forall k R D E R' D' E' M,
    (forall m, k < m < nt -> R m = R' m) -> (forall m j, k < m < nt -> 0 <= j < k -> D m j = D' m j) ->
    (forall j, 0 <= j < k -> E j = E' j) -> rel M0 (XX k R D E) M -> rel M0 (XX k R' D' E') M.
  Proof.
    intros k R D E R' D' E' M H1 H2 H3. apply vrel_ext. intros i j Hij. pose proof (tstored_lt i j Hij) as (J1 & J2).
    unfold XX. destruct (tsel i j); [|reflexivity]. destruct (Z.ltb_spec (j / nb) k) as [L|L].
    - destruct (Z.ltb_spec (i / nb) k); [reflexivity|]. destruct (Z.eqb_spec (i / nb) k).
      + rewrite H3 by lia. reflexivity.
      + rewrite H2 by lia. reflexivity.
    - destruct (Z.eqb_spec (j / nb) k); cbn [andb]; [|reflexivity]. destruct (Z.ltb_spec k (i / nb)); cbn [andb]; [|reflexivity].
      rewrite H1 by lia. reflexivity.
  Qed.

  Ltac zb := repeat match goal with
    | |- context [?a <? ?b] => destruct (Z.ltb_spec a b)
    | |- context [?a <=? ?b] => destruct (Z.leb_spec a b)
    | |- context [?a =? ?b] => destruct (Z.eqb_spec a b)
    end; cbn [andb orb negb]; try reflexivity; try lia.

  Lemma trest_step : forall k, 0 <= k < nt ->
    gh (rel M0 (XX k none1 none2 none1)) (map sure (trest k)) 0 (rel M0 (XX k all1 all2 all1)).
  Proof.
    intros k Hk. unfold TrtriTaskProofs.trest. rewrite map_app, map_map.
    apply (gh_app _ (rel M0 (XX k all1 none2 none1)) _ _ _ 0 0); [| |reflexivity].
    - apply (gh_mono (rel M0 (XX k (upto (k + 1)) none2 none1)) _ (rel M0 (XX k (upto nt) none2 none1))).
      + intros M. apply XX_ext; auto. intros m Hm. unfold none1, upto. zb.
      + intros M. apply XX_ext; auto. intros m Hm. unfold all1, upto. zb.
      + apply (gh_map0 (fun m => rel M0 (XX k (upto m) none2 none1))); [lia|]. intros m M Hm.
        apply rtask_XX; unfold upto; try lia; intros; zb.
    - destruct (vlow uplo).
      + rewrite map_app, map_flat_map, map_map.
        apply (gh_app _ (rel M0 (XX k all1 all2 none1)) _ _ _ 0 0); [| |reflexivity].
        * apply (gh_mono (rel M0 (XX k all1 (fun m _ => m <? k + 1) none1)) _ (rel M0 (XX k all1 (fun m _ => m <? nt) none1))).
          -- intros M. apply XX_ext; auto. intros m j Hm Hj. unfold none2. zb.
          -- intros M. apply XX_ext; auto. intros m j Hm Hj. unfold all2. zb.
          -- apply (gh_loop0 (fun m => rel M0 (XX k all1 (fun i _ => i <? m) none1))); [lia|]. intros m Hm. rewrite map_map.
             apply (gh_mono (rel M0 (XX k all1 (fun i c => (i <? m) || ((i =? m) && (c <? 0))) none1)) _
                            (rel M0 (XX k all1 (fun i c => (i <? m) || ((i =? m) && (c <? k))) none1))).
             ++ intros M. apply XX_ext; auto. intros i j Hi Hj. zb.
             ++ intros M. apply XX_ext; auto. intros i j Hi Hj. zb.
             ++ apply (gh_map0 (fun j => rel M0 (XX k all1 (fun i c => (i <? m) || ((i =? m) && (c <? j))) none1))); [lia|].
                intros j M Hj. apply utask_XX; unfold all1, none1; try lia; try reflexivity; intros; zb.
        * apply (gh_mono (rel M0 (XX k all1 all2 (upto 0))) _ (rel M0 (XX k all1 all2 (upto k)))).
          -- intros M. apply XX_ext; auto. intros j Hj. unfold none1, upto. zb.
          -- intros M. apply XX_ext; auto. intros j Hj. unfold all1, upto. zb.
          -- apply (gh_map0 (fun j => rel M0 (XX k all1 all2 (upto j)))); [lia|]. intros j M Hj.
             apply ltask_XX; unfold upto; try lia; intros; zb.
      + rewrite map_flat_map.
        apply (gh_mono (rel M0 (XX k all1 (fun _ c => c <? 0) (upto 0))) _ (rel M0 (XX k all1 (fun _ c => c <? k) (upto k)))).
        * intros M. apply XX_ext; auto.
          -- intros i j Hi Hj. unfold none2. zb.
          -- intros j Hj. unfold none1, upto. zb.
        * intros M. apply XX_ext; auto.
          -- intros i j Hi Hj. unfold all2. zb.
          -- intros j Hj. unfold all1, upto. zb.
        * apply (gh_loop0 (fun j => rel M0 (XX k all1 (fun _ c => c <? j) (upto j)))); [lia|]. intros j Hj.
          rewrite map_app, map_map. cbn [map].
          apply (gh_app _ (rel M0 (XX k all1 (fun _ c => c <? j + 1) (upto j))) _ _ _ 0 0); [| |reflexivity].
          -- apply (gh_mono (rel M0 (XX k all1 (fun i c => (c <? j) || ((c =? j) && (i <? k + 1))) (upto j))) _
                            (rel M0 (XX k all1 (fun i c => (c <? j) || ((c =? j) && (i <? nt))) (upto j)))).
             ++ intros M. apply XX_ext; auto. intros i c Hi Hc. zb.
             ++ intros M. apply XX_ext; auto. intros i c Hi Hc. zb.
             ++ apply (gh_map0 (fun m => rel M0 (XX k all1 (fun i c => (c <? j) || ((c =? j) && (i <? m))) (upto j)))); [lia|].
                intros m M Hm. apply utask_XX; unfold all1, upto; try lia; try reflexivity; intros; zb.
          -- apply gh_sure. intros M. apply ltask_XX; unfold upto; try lia; intros; zb.
  Qed.

  Lemma dcode_XX : forall k R D E, 0 <= k < nt -> dcode nb n diag (XX k R D E) k = 0.
  Proof.
    intros k R D E Hk. unfold dcode. destruct unit eqn:EU; [reflexivity|].
    destruct (find _ _) as [a|] eqn:EF; [|reflexivity]. exfalso. apply find_some in EF. destruct EF as [E1 E2].
    apply in_zrange in E1. apply neqb_eq in E2. destruct (pos_el k a Hk E1) as (Q1 & Q2 & _).
    apply (HD (k * nb + a) Q1). rewrite <- (tk_XX k R D E a a) by lia. unfold TrtriStepProofs.tk. rewrite EU, Z.leb_refl. exact E2.
  Qed.

  Lemma tlist_step :
    gh (rel M0 SS) tlist 0 (rel M0 (fun i j => if tsel i j then X i j else SS i j)).
  Proof.
    assert (NT : 0 <= nt) by (unfold nt, ntl; apply Z.div_pos; lia).
    apply (gh_mono (rel M0 (XX 0 none1 none2 none1)) _ (rel M0 (XX nt none1 none2 none1))).
    - intros M. apply vrel_ext. intros i j Hij. pose proof (tstored_lt i j Hij). unfold XX, none1, none2.
      rewrite andb_false_r. destruct (tsel i j); [|reflexivity].
      replace (j / nb <? 0) with false by (symmetry; apply Z.ltb_ge; lia). reflexivity.
    - intros M. apply vrel_ext. intros i j Hij. pose proof (tstored_lt i j Hij). unfold XX.
      destruct (tsel i j); [|reflexivity]. replace (j / nb <? nt) with true by (symmetry; apply Z.ltb_lt; lia).
      replace (i / nb <? nt) with true by (symmetry; apply Z.ltb_lt; lia). reflexivity.
    - apply (gh_loop0 (fun k => rel M0 (XX k none1 none2 none1))); [assumption|]. intros k Hk.
      apply (gh_app _ (rel M0 (XX k all1 all2 all1)) _ _ _ 0 0); [apply trest_step; assumption| |reflexivity].
      intros M HR. split.
      + cbn [map krun]. apply (ttask_XX k all1 all2 all1); auto.
      + cbn [kcodes]. destruct (ttask_info nb n A SA bA uplo diag Hu HQ DM DN HSA M0 _ M k HR Hk) as [E _].
        rewrite E, dcode_XX by assumption. reflexivity.
  Qed.
End Loops.
