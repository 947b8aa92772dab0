(* The product of a triangular matrix with its conjugate transpose: the loops. *)
From Coq Require Import ZArith List Bool Lia Ring.
From Verif Require Import Base NumModel NumProofs FieldModel TaskModel TaskSpec TaskProofs DescModel DescSpec
  DescDriverModel DescProofs DescPackProofs DescProofs3 DescProofs4 MatModel MatSpec MatProofs RegionProofs
  GuardModel GuardSpec GuardProofs GuardProofs2
  LayoutModel LayoutProofs LayoutProofs2 DriverModel DriverSpec OpProofs SimProofs OperandProofs
  GemmModel GemmProofs GemmDriverProofs RankModel RankProofs RankDriverProofs LasetModel LasetProofs
  TriModel TriSpec TriVecProofs TriProofs TrmmProofs TrsmProofs PotrfModel CholProofs PotrfProofs InvProofs ViewProofs TrtriModel TrtriTaskProofs TrtriStepProofs TrtriProofs LauumTaskProofs.
Import ListNotations.
Open Scope Z_scope.

Section Loops.

  Context {F : fields}.
  Add Ring num_ring_lauum_loops : (nring F).
  Variables (nb n : Z) (A : desc) (SA : Z -> Z -> Prop) (bA uplo : Z).
  Hypothesis Hu : valid_uplo uplo.
  Hypothesis HQ : sq nb A SA.
  Hypotheses (DM : d_m A = n) (DN : d_n A = n).
  Let nt := ntl nb n.
  Hypothesis HSA : forall i j, 0 <= i < nt -> 0 <= j < nt -> uplo_sel uplo i j = true -> SA i j.
  Let Hb : 0 < nb := sq_pos nb A _ HQ.
  Let Hn : 0 <= n.
  Proof. rewrite <- DM. apply (go_m A (td_shape _ _ (sq_t nb A _ HQ))). Qed.

  Local Notation low := (vlow uplo).
  Local Notation tm := (vr uplo).
  Local Notation tn := (vc uplo).
  Local Notation tp := (vp A bA uplo).
  Local Notation tl := (vl A uplo).
  Local Notation rel := (vrel nb n A bA uplo).
  Local Notation stored := (vstored nb n).

  Let t_ld : forall m k, 0 <= k <= m -> m < nt -> tsz nb n (tm m k) <= tl m k.
  Proof. exact (vt_ld nb n A SA uplo Hu HQ DM HSA). Qed.
  Let t_full : forall k m, 0 <= k < m -> m < nt -> tsz nb n k = nb.
  Proof. exact (vt_full nb n A SA HQ DM). Qed.
  Let t_pos : forall k, 0 <= k < nt -> 0 < tsz nb n k <= nb.
  Proof. exact (vt_pos nb n A SA HQ DM). Qed.
  Let t_sel : forall a c, uplo_sel uplo (tm a c) (tn a c) = (c <=? a).
  Proof. exact (vsel nb n SA uplo Hu HSA). Qed.
  Let pos_el : forall m a, 0 <= m < nt -> 0 <= a < tsz nb n m ->
    0 <= m * nb + a < n /\ (m * nb + a) / nb = m /\ (m * nb + a) mod nb = a.
  Proof. exact (vpos_el nb n A SA HQ). Qed.
  Let el_pos : forall i, 0 <= i < n -> 0 <= i / nb < nt /\ 0 <= i mod nb < tsz nb n (i / nb) /\ i = i / nb * nb + i mod nb.
  Proof. exact (vel_pos nb n A SA HQ DM). Qed.

  Variable rp : F -> F.
  Hypothesis HRP : forall x, nconj x = x -> rp x = x.
  Local Notation htask := (@htask F nb n A bA uplo rp).
  Local Notation gtask := (@gtask F nb n A bA uplo).
  Local Notation mtask := (@mtask F nb n A bA uplo).
  Local Notation ztask := (@ztask F nb n A bA uplo rp).
  Local Notation lrest := (@lrest F nb n A bA uplo rp).
  Local Notation llist := (@llist F nb n A bA uplo rp).
  Local Notation tk := (tk nb PlasmaNonUnit).
  Variable M0 : mem F.
  Variable SS : Z -> Z -> F.
  Hypothesis HD : forall i, 0 <= i < n -> nconj (SS i i) = SS i i.

  (* the triangular matrix of the view, and the part of the product that rows before k*nb give *)
  Definition LL (i j : Z) : F := if j <=? i then SS i j else n0.
  Definition GG (k i j : Z) : F := nsum (fun l => nmul (nconj (LL l i)) (LL l j)) 0 (Z.min n (k * nb)).

  Lemma LL_low : forall i j, i < j -> LL i j = n0.
  Proof. intros i j H. unfold LL. replace (j <=? i) with false by (symmetry; apply Z.leb_gt; lia). reflexivity. Qed.

  Lemma GG_step : forall k i j, 0 <= k < nt ->
    GG (k + 1) i j = nadd (GG k i j)
      (nsum (fun l => nmul (nconj (LL (k * nb + l) i)) (LL (k * nb + l) j)) 0 (tsz nb n k)).
  Proof.
    intros k i j Hk. assert (KN : k * nb < n) by (apply ntl_spec; auto; lia). assert (0 <= k * nb) by nia.
    unfold GG. rewrite (Z.min_r n (k * nb)) by lia.
    replace (Z.min n ((k + 1) * nb)) with (k * nb + tsz nb n k) by (unfold tsz; lia).
    pose proof (t_pos k Hk). rewrite (nsum_app _ _ 0 (k * nb)) by lia. apply f_equal. apply nsum_off0.
  Qed.

  Lemma GG_zero : forall k i j, 0 <= k -> k * nb <= i -> GG k i j = n0.
  Proof.
    intros k i j Hk Hi. apply nsum_0. intros l Hl. rewrite (LL_low l i) by lia. rewrite nconj_0. ring.
  Qed.

  Lemma GG_real : forall k i, nconj (GG k i i) = GG k i i.
  Proof. intros k i. unfold GG. rewrite nconj_sum. apply nsum_ext. intros l _. rewrite nconj_mul, nconj_conj. ring. Qed.

  (* the view in iteration k: H m j, tile (m,j) has been updated; E j, tile (k,j) has been
     multiplied *)
  Definition YY (k : Z) (H : Z -> Z -> bool) (E : Z -> bool) (i j : Z) : F :=
    if j <=? i then
      if i / nb <? k then (if H (i / nb) (j / nb) then GG (k + 1) i j else GG k i j)
      else if (i / nb =? k) && E (j / nb) then GG (k + 1) i j else SS i j
    else SS i j.

  Let stored_lt : forall i j, stored i j -> 0 <= j / nb <= i / nb /\ i / nb < nt.
  Proof. exact (tstored_lt nb n A SA HQ DM). Qed.

  Ltac zb := repeat match goal with
    | |- context [?a <? ?b] => destruct (Z.ltb_spec a b)
    | |- context [?a <=? ?b] => destruct (Z.leb_spec a b)
    | |- context [?a =? ?b] => destruct (Z.eqb_spec a b)
    end; cbn [andb orb negb]; try reflexivity; try lia.

  Lemma YY_ext : forall k H E H' E' M,
    (forall m j, 0 <= j <= m -> m < k -> H m j = H' m j) -> (forall j, 0 <= j <= k -> E j = E' j) ->
    rel M0 (YY k H E) M -> rel M0 (YY k H' E') M.
  Proof.
    intros k H E H' E' M H1 H2. apply vrel_ext. intros i j Hij. pose proof (stored_lt i j Hij) as (J1 & J2).
    unfold YY. destruct (j <=? i); [|reflexivity]. destruct (Z.ltb_spec (i / nb) k).
    - rewrite H1 by lia. reflexivity.
    - destruct (Z.eqb_spec (i / nb) k); [|reflexivity]. rewrite H2 by lia. reflexivity.
  Qed.

  (* tile (k,j) before it is multiplied *)
  Lemma YY_row : forall k H E j a c, 0 <= j < k -> k < nt -> 0 <= a < tsz nb n k -> 0 <= c < nb -> E j = false ->
    YY k H E (k * nb + a) (j * nb + c) = LL (k * nb + a) (j * nb + c).
  Proof.
    intros k H E j a c Hj Hk Ha Hc HE. pose proof (t_full j k Hj Hk) as TJ.
    destruct (pos_el k a ltac:(lia) Ha) as (_ & Q2 & _). destruct (pos_el j c ltac:(lia) ltac:(lia)) as (_ & P2 & _).
    unfold YY, LL. rewrite Q2, P2, HE, Z.ltb_irrefl, andb_false_r.
    replace (j * nb + c <=? k * nb + a) with true by (symmetry; apply Z.leb_le; nia). reflexivity.
  Qed.

  Lemma YY_in : forall k H E m j a c, 0 <= j <= m -> m < k -> k < nt -> 0 <= a < nb -> 0 <= c < nb ->
    j * nb + c <= m * nb + a ->
    YY k H E (m * nb + a) (j * nb + c) = if H m j then GG (k + 1) (m * nb + a) (j * nb + c) else GG k (m * nb + a) (j * nb + c).
  Proof.
    intros k H E m j a c Hj Hm Hk Ha Hc HL. pose proof (t_full j k ltac:(lia) Hk) as TJ. pose proof (t_full m k ltac:(lia) Hk) as TM.
    destruct (pos_el m a ltac:(lia) ltac:(lia)) as (_ & Q2 & _). destruct (pos_el j c ltac:(lia) ltac:(lia)) as (_ & P2 & _).
    unfold YY. rewrite Q2, P2. replace (j * nb + c <=? m * nb + a) with true by (symmetry; apply Z.leb_le; lia).
    replace (m <? k) with true by (symmetry; apply Z.ltb_lt; lia). reflexivity.
  Qed.

  Lemma htask_YY : forall k j H H' E M, 0 <= j < k -> k < nt -> H j j = false -> H' j j = true -> E j = false ->
    (forall a c, 0 <= c <= a -> a <> j \/ c <> j -> H' a c = H a c) ->
    rel M0 (YY k H E) M -> rel M0 (YY k H' E) (k_fun (htask k j) M).
  Proof.
    intros k j H H' E M Hj Hk H0 H1 E0 H2 HR.
    apply (htask_step nb n A SA bA uplo Hu HQ DM DN HSA rp M0 HRP (YY k H E)); auto.
    - intros a c Ha Hc. rewrite !YY_in by lia. rewrite H0, H1, GG_step by lia. apply f_equal.
      apply nsum_ext. intros l Hl. rewrite !YY_row by (auto; lia). reflexivity.
    - intros a Ha. rewrite YY_in by lia. rewrite H0. apply GG_real.
    - intros i c Hic HN. pose proof (stored_lt i c Hic). unfold YY. destruct (Z.leb_spec c i); [|reflexivity].
      rewrite H2; [reflexivity|lia|]. destruct (Z.eq_dec (i / nb) j); [|left; assumption].
      destruct (Z.eq_dec (c / nb) j); [|right; assumption]. exfalso. apply HN. auto.
  Qed.

  Lemma gtask_YY : forall k m j H H' E M, 0 <= j < m -> m < k -> k < nt -> H m j = false -> H' m j = true ->
    E j = false -> E m = false ->
    (forall a c, 0 <= c <= a -> a <> m \/ c <> j -> H' a c = H a c) ->
    rel M0 (YY k H E) M -> rel M0 (YY k H' E) (k_fun (gtask k m j) M).
  Proof.
    intros k m j H H' E M Hj Hm Hk H0 H1 E0 E1 H2 HR.
    apply (gtask_step nb n A SA bA uplo Hu HQ DM DN HSA M0 (YY k H E)); auto.
    - intros a c Ha Hc. rewrite !YY_in by nia. rewrite H0, H1, GG_step by lia. apply f_equal.
      apply nsum_ext. intros l Hl. rewrite !YY_row by (auto; lia). reflexivity.
    - intros i c Hic HN. pose proof (stored_lt i c Hic). unfold YY. destruct (Z.leb_spec c i); [|reflexivity].
      rewrite H2; [reflexivity|lia|]. destruct (Z.eq_dec (i / nb) m); [|left; assumption].
      destruct (Z.eq_dec (c / nb) j); [|right; assumption]. exfalso. apply HN. auto.
  Qed.

  (* the diagonal tile (k,k) in iteration k *)
  Lemma tk_YY : forall k H E r c, 0 <= k < nt -> 0 <= r < tsz nb n k -> 0 <= c < tsz nb n k -> E k = false ->
    tk (YY k H E) k r c = LL (k * nb + r) (k * nb + c).
  Proof.
    intros k H E r c Hk Hr Hc HE. unfold TrtriStepProofs.tk, LL. change (PlasmaNonUnit =? PlasmaUnit) with false. cbn [andb].
    replace (k * nb + c <=? k * nb + r) with (c <=? r) by (apply eq_true_iff_eq; rewrite !Z.leb_le; lia).
    destruct (c <=? r); [|reflexivity].
    destruct (pos_el k r Hk Hr) as (_ & P2 & _). destruct (pos_el k c Hk Hc) as (_ & Q2 & _).
    unfold YY. rewrite P2, Q2, Z.ltb_irrefl, HE, andb_false_r. destruct (_ <=? _); reflexivity.
  Qed.

  Lemma mtask_YY : forall k j H E E' M, 0 <= j < k -> k < nt -> E j = false -> E k = false -> E' j = true ->
    (forall i, i <> j -> E' i = E i) ->
    rel M0 (YY k H E) M -> rel M0 (YY k H E') (k_fun (mtask k j) M).
  Proof.
    intros k j H E E' M Hj Hk E0 EK E1 E2 HR. pose proof (t_full j k Hj Hk) as TJ.
    apply (mtask_step nb n A SA bA uplo Hu HQ DM DN HSA M0 (YY k H E)); auto.
    - intros a c Ha Hc. destruct (pos_el k a ltac:(lia) Ha) as (_ & Q2 & _).
      destruct (pos_el j c ltac:(lia) ltac:(lia)) as (_ & P2 & _).
      transitivity (GG (k + 1) (k * nb + a) (j * nb + c)).
      + unfold YY. rewrite Q2, P2, E1, Z.ltb_irrefl, Z.eqb_refl.
        replace (j * nb + c <=? k * nb + a) with true by (symmetry; apply Z.leb_le; nia). reflexivity.
      + rewrite GG_step by lia. rewrite GG_zero by lia.
        rewrite (nsum_ext F _ (fun l => nmul (nconj (tk (YY k H E) k l a)) (YY k H E (k * nb + l) (j * nb + c)))).
        * ring.
        * intros l Hl. rewrite tk_YY, YY_row by (auto; lia). reflexivity.
    - intros i c Hic HN. unfold YY. destruct (c <=? i); [|reflexivity]. destruct (i / nb <? k); [reflexivity|].
      destruct (Z.eqb_spec (i / nb) k); [|reflexivity]. rewrite E2; [reflexivity|]. intros EC. apply HN. auto.
  Qed.

  Lemma ztask_YY : forall k H E M, 0 <= k < nt -> (forall m j, 0 <= j <= m -> m < k -> H m j = true) ->
    (forall j, 0 <= j < k -> E j = true) -> E k = false ->
    rel M0 (YY k H E) M -> rel M0 (YY (k + 1) none2 none1) (k_fun (ztask k) M).
  Proof.
    intros k H E M Hk HH HE EK HR.
    apply (ztask_step nb n A SA bA uplo Hu HQ DM DN HSA rp M0 HRP (YY k H E)); auto.
    - intros a Ha. destruct (pos_el k a Hk Ha) as (Q1 & Q2 & _).
      unfold YY. rewrite Q2, EK, Z.leb_refl, Z.ltb_irrefl, andb_false_r. apply HD. assumption.
    - intros a c Ha Hc. destruct (pos_el k a Hk Ha) as (Q1 & Q2 & _). destruct (pos_el k c Hk ltac:(lia)) as (P1 & P2 & _).
      transitivity (GG (k + 1) (k * nb + a) (k * nb + c)).
      + unfold YY. rewrite Q2. replace (k * nb + c <=? k * nb + a) with true by (symmetry; apply Z.leb_le; lia).
        replace (k <? k + 1) with true by (symmetry; apply Z.ltb_lt; lia). reflexivity.
      + rewrite GG_step by lia. rewrite GG_zero by lia.
        rewrite (nsum_ext F _ (fun l => nmul (nconj (tk (YY k H E) k l a)) (tk (YY k H E) k l c))).
        * ring.
        * intros l Hl. rewrite !tk_YY by (auto; lia). reflexivity.
    - intros i j Hij HN. pose proof (stored_lt i j Hij) as (J1 & J2). unfold YY, none1, none2.
      destruct (Z.leb_spec j i) as [L|L]; [|reflexivity]. rewrite andb_false_r.
      destruct (Z.ltb_spec (i / nb) k).
      + replace (i / nb <? k + 1) with true by (symmetry; apply Z.ltb_lt; lia). rewrite HH by lia. reflexivity.
      + destruct (Z.eqb_spec (i / nb) k) as [I|I].
        * replace (i / nb <? k + 1) with true by (symmetry; apply Z.ltb_lt; lia).
          rewrite HE; [reflexivity|]. destruct (Z.eq_dec (j / nb) k); [|lia]. exfalso. apply HN. auto.
        * replace (i / nb <? k + 1) with false by (symmetry; apply Z.ltb_ge; lia). reflexivity.
  Qed.

  Lemma lrest_step : forall k, 0 <= k < nt ->
    gh (rel M0 (YY k none2 none1)) (map sure (lrest k)) 0 (rel M0 (YY (k + 1) none2 none1)).
  Proof.
    intros k Hk. unfold LauumTaskProofs.lrest. rewrite !map_app, map_flat_map, map_map. cbn [map].
    apply (gh_app _ (rel M0 (YY k all2 none1)) _ _ _ 0 0); [| |reflexivity].
    - apply (gh_mono (rel M0 (YY k (fun _ c => c <? 0) none1)) _ (rel M0 (YY k (fun _ c => c <? k) none1))).
      + intros M. apply YY_ext; auto. intros m j Hj Hm. unfold none2. zb.
      + intros M. apply YY_ext; auto. intros m j Hj Hm. unfold all2. zb.
      + apply (gh_loop0 (fun j => rel M0 (YY k (fun _ c => c <? j) none1))); [lia|]. intros j Hj. cbn [map]. rewrite map_map.
        apply (gh_cons _ (rel M0 (YY k (fun i c => (c <? j) || ((c =? j) && (i <? j + 1))) none1)) _ _ _ 0 0); [| |reflexivity].
        * apply gh_sure. intros M. apply htask_YY; unfold none1; try lia; try reflexivity; intros; zb.
        * apply (gh_mono (rel M0 (YY k (fun i c => (c <? j) || ((c =? j) && (i <? j + 1))) none1)) _
                         (rel M0 (YY k (fun i c => (c <? j) || ((c =? j) && (i <? k))) none1))); [auto| |].
          -- intros M. apply YY_ext; auto. intros m c Hc Hm. zb.
          -- apply (gh_map0 (fun m => rel M0 (YY k (fun i c => (c <? j) || ((c =? j) && (i <? m))) none1))); [lia|].
             intros m M Hm. apply gtask_YY; unfold none1; try lia; try reflexivity; intros; zb.
    - apply (gh_app _ (rel M0 (YY k all2 (upto k))) _ _ _ 0 0); [| |reflexivity].
      + apply (gh_mono (rel M0 (YY k all2 (upto 0))) _ (rel M0 (YY k all2 (upto k)))); [|auto|].
        * intros M. apply YY_ext; auto. intros j Hj. unfold none1, upto. zb.
        * apply (gh_map0 (fun j => rel M0 (YY k all2 (upto j)))); [lia|]. intros j M Hj.
          apply mtask_YY; unfold upto; try lia; intros; zb.
      + apply gh_sure. intros M. apply ztask_YY; unfold all2, upto; try lia; try reflexivity; intros; zb.
  Qed.

  Lemma llist_step :
    gh (rel M0 SS) (map sure llist) 0
      (rel M0 (fun i j => if j <=? i then nsum (fun l => nmul (nconj (LL l i)) (LL l j)) 0 n else SS i j)).
  Proof.
    assert (NT : 0 <= nt) by (unfold nt, ntl; apply Z.div_pos; lia).
    apply (gh_mono (rel M0 (YY 0 none2 none1)) _ (rel M0 (YY nt none2 none1))).
    - intros M. apply vrel_ext. intros i j Hij. pose proof (stored_lt i j Hij). unfold YY, none1, none2.
      rewrite andb_false_r. destruct (j <=? i); [|reflexivity].
      replace (i / nb <? 0) with false by (symmetry; apply Z.ltb_ge; lia). reflexivity.
    - intros M. apply vrel_ext. intros i j Hij. pose proof (stored_lt i j Hij). unfold YY.
      destruct (j <=? i); [|reflexivity]. replace (i / nb <? nt) with true by (symmetry; apply Z.ltb_lt; lia).
      unfold none2, GG. rewrite Z.min_l; [reflexivity|].
      destruct (Z_le_gt_dec n (nt * nb)); [assumption|]. exfalso. assert (nt < nt); [|lia]. apply ntl_spec; auto; lia.
    - unfold LauumTaskProofs.llist. rewrite map_flat_map.
      apply (gh_loop0 (fun k => rel M0 (YY k none2 none1))); [assumption|]. intros k Hk. apply lrest_step. assumption.
  Qed.
End Loops.
