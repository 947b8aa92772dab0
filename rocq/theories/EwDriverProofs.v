From Coq Require Import ZArith List Bool Lia Ring.
From Verif Require Import Base NumModel NumProofs FieldModel TaskModel TaskSpec TaskProofs DescModel DescSpec
  DescDriverModel DescProofs DescProofs3 DescProofs4 MatModel MatSpec MatProofs RegionProofs
  LayoutModel LayoutProofs LayoutProofs2 DriverModel DriverSpec OpProofs SimProofs OperandProofs
  GemmModel GemmProofs GemmDriverProofs RankProofs RankDriverProofs LasetModel LasetProofs EwModel EwSpec EwProofs.
Import ListNotations.
Open Scope Z_scope.

Lemma part_sel : forall uplo i j, valid_part uplo -> (uplo_sel uplo i j = true <-> in_part uplo i j).
Proof.
  intros uplo i j H. unfold in_part, selects.
  destruct H as [->|[->| ->]]; unfold uplo_sel; cbn [Z.eqb Pos.eqb PlasmaGeneral PlasmaUpper PlasmaLower];
    rewrite ?Z.leb_le; split; auto; intros [E|[[E H]|[E H]]]; auto; discriminate.
Qed.
Lemma part3 : forall uplo, valid_part uplo -> uplo = PlasmaGeneral \/ uplo = PlasmaUpper \/ uplo = PlasmaLower.
Proof. unfold valid_part, valid_uplo. tauto. Qed.
Lemma part_b : forall uplo, valid_part uplo -> ew_uplo3 uplo = true.
Proof. intros uplo [->|[->| ->]]; reflexivity. Qed.

(* one dense operand, read and written *)
Lemma ge_region1 : forall V nb bA A pA lda (comp : list (ktask V)),
  dn nb A -> d_m A <= lda -> fst pA <> bA -> Forall kgood comp ->
  (forall env, In (bA, homeD A (in_tiles A)) env -> Forall (kdecl (home_env env)) comp) ->
  forall M, region_ensures (pzge2desc pA lda bA A ++ comp ++ pzdesc2ge bA A pA lda) M
    (fun M' => exists M3,
      (forall i j, 0 <= i < d_m A -> 0 <= j < d_n A -> el M3 bA A i j = ul M pA lda i j) /\
      (forall l, fst l <> bA -> M3 l = M l) /\
      (forall i j, 0 <= i < d_m A -> 0 <= j < d_n A -> ul M' pA lda i j = el (krun comp M3) bA A i j) /\
      (forall l, ~ in_user pA lda (d_m A) (d_n A) l -> M' l = krun comp M3 l)).
Proof.
  intros V nb bA A pA lda comp HA LA HF CG CD M.
  pose proof (std_region V nb [] (ge_opnd bA A pA lda) comp) as R.
  cbn [flat_map] in R. rewrite !ge_opnd_in, ge_opnd_out in R. cbn [app] in R.
  eapply region_mono; [|apply R; clear R]; auto.
  - intros M' (M3 & H1 & H2 & H3 & H4). exists M3. split; [|split; [|split]].
    + intros i j Hi Hj. apply (H1 (ge_opnd bA A pA lda)); [left; reflexivity|].
      apply (ge_opnd_el nb); assumption.
    + intros l Hl. apply H2. cbn. intuition.
    + intros i j Hi Hj. apply H3. apply (ge_opnd_el nb); assumption.
    + intros l Hl. apply H4. apply ge_user_out. assumption.
  - intros o [<-|[]]; apply ge_opnd_ok; assumption.
  - cbn. constructor; [intros []|constructor].
  - intros o [<-|[]]; cbn. intuition.
  - intros o [].
  - intros env HE. apply CD. apply (HE (ge_opnd bA A pA lda)). left; reflexivity.
Qed.

(* two dense operands, both read and written *)
Lemma ge_region22 : forall V nb bA A pA lda bB B pB ldb (comp : list (ktask V)),
  dn nb A -> dn nb B -> d_m A <= lda -> d_m B <= ldb ->
  NoDup [bA; bB] -> (forall b, In b [fst pA; fst pB] -> ~ In b [bA; bB]) ->
  apart pA lda (d_m A) (d_n A) pB ldb (d_m B) (d_n B) ->
  Forall kgood comp ->
  (forall env, In (bA, homeD A (in_tiles A)) env -> In (bB, homeD B (in_tiles B)) env ->
     Forall (kdecl (home_env env)) comp) ->
  forall M, region_ensures (pzge2desc pA lda bA A ++ pzge2desc pB ldb bB B ++ comp
                            ++ pzdesc2ge bA A pA lda ++ pzdesc2ge bB B pB ldb) M
    (fun M' => exists M3,
      (forall i j, 0 <= i < d_m A -> 0 <= j < d_n A -> el M3 bA A i j = ul M pA lda i j) /\
      (forall i j, 0 <= i < d_m B -> 0 <= j < d_n B -> el M3 bB B i j = ul M pB ldb i j) /\
      (forall l, ~ In (fst l) [bA; bB] -> M3 l = M l) /\
      (forall i j, 0 <= i < d_m A -> 0 <= j < d_n A -> ul M' pA lda i j = el (krun comp M3) bA A i j) /\
      (forall i j, 0 <= i < d_m B -> 0 <= j < d_n B -> ul M' pB ldb i j = el (krun comp M3) bB B i j) /\
      (forall l, ~ in_user pA lda (d_m A) (d_n A) l -> ~ in_user pB ldb (d_m B) (d_n B) l -> M' l = krun comp M3 l)).
Proof.
  intros V nb bA A pA lda bB B pB ldb comp HA HB LA LB ND HF AP CG CD M.
  assert (F1 := HF (fst pA)). assert (F2 := HF (fst pB)). cbn in F1, F2.
  inversion_clear ND as [|? ? N1 N2]. cbn in N1.
  assert (AP' : apart pB ldb (d_m B) (d_n B) pA lda (d_m A) (d_n A)) by (intros l H1 H2; exact (AP l H2 H1)).
  pose proof (ops_region (V := V) nb [ge_opnd bA A pA lda; ge_opnd bB B pB ldb]
    [ge_opnd bA A pA lda; ge_opnd bB B pB ldb] [ge_opnd bA A pA lda; ge_opnd bB B pB ldb]) as R.
  assert (NE : ge_opnd bA A pA lda <> ge_opnd bB B pB ldb).
  { intros E. apply (f_equal o_b) in E. cbn in E. intuition. }
  assert (ND2 : NoDup [ge_opnd bA A pA lda; ge_opnd bB B pB ldb]).
  { constructor; [intros [E|[]]; intuition|constructor; [intros []|constructor]]. }
  unshelve epose proof (R _ (incl_refl _) (incl_refl _) _ _ ND2 ND2 _ _ comp CG _ M) as R2.
  - intros o [<-|[<-|[]]]; apply ge_opnd_ok; assumption.
  - cbn. constructor; [intros [E|[]]; intuition|constructor; [intros []|constructor]].
  - intros o o' [<-|[<-|[]]] [<-|[<-|[]]]; cbn; intuition.
  - intros o o' [<-|[<-|[]]] [<-|[<-|[]]]; auto; right; apply ge_apart; assumption.
  - intros o Ho. left. assumption.
  - intros env HE. apply CD; [apply (HE (ge_opnd bA A pA lda))|apply (HE (ge_opnd bB B pB ldb))]; cbn; auto.
  - clear R. cbn [flat_map] in R2. rewrite !ge_opnd_in, !ge_opnd_out, !app_nil_r, <- app_assoc in R2.
    eapply region_mono; [|exact R2].
    intros M' (M3 & H1 & H2 & H3 & H4). exists M3. split; [|split; [|split; [|split; [|split]]]].
    + intros i j Hi Hj. apply (H1 (ge_opnd bA A pA lda)); [left; reflexivity|].
      apply (ge_opnd_el nb); assumption.
    + intros i j Hi Hj. apply (H1 (ge_opnd bB B pB ldb)); [right; left; reflexivity|].
      apply (ge_opnd_el nb); assumption.
    + intros l Hl. apply H2. cbn in Hl. intros o [<-|[<-|[]]]; cbn; intuition.
    + intros i j Hi Hj. apply (H3 (ge_opnd bA A pA lda)); [left; reflexivity|].
      apply (ge_opnd_el nb); assumption.
    + intros i j Hi Hj. apply (H3 (ge_opnd bB B pB ldb)); [right; left; reflexivity|].
      apply (ge_opnd_el nb); assumption.
    + intros l Ha Hb. apply H4. intros o [<-|[<-|[]]]; apply ge_user_out; assumption.
Qed.

(* a user location is an element of the matrix or not *)
Lemma in_user_dec : forall p ld m n l, Z.max 1 m <= ld -> in_user p ld m n l \/ ~ in_user p ld m n l.
Proof.
  intros p ld m n [b x] Hld. destruct (Z.eq_dec b (fst p)) as [->|Nb].
  2: { right. intros (i & j & _ & _ & E). injection E as E _. congruence. }
  assert (Hl : 0 < ld) by lia.
  pose (o := x - snd p). destruct (div_mod_pos o ld Hl) as [Eo Ro].
  destruct (Z_lt_dec (o mod ld) m) as [Hm|Hm]; [destruct (Z_le_dec 0 (o / ld)) as [H0|H0];
    [destruct (Z_lt_dec (o / ld) n) as [Hn|Hn]|]|].
  - left. exists (o mod ld), (o / ld). split; [lia|]. split; [lia|]. f_equal. unfold o in *. lia.
  - right. intros (i & j & Hi & Hj & E). injection E as E. apply Hn.
    replace (o / ld) with j; [lia|]. apply Z.div_unique with (r := i); [left; lia|unfold o; lia].
  - right. intros (i & j & Hi & Hj & E). injection E as E. apply H0.
    replace (o / ld) with j; [lia|]. apply Z.div_unique with (r := i); [left; lia|unfold o; lia].
  - right. intros (i & j & Hi & Hj & E). injection E as E. apply Hm.
    replace (o mod ld) with i; [lia|]. apply Z.mod_unique with (q := j); [left; lia|unfold o; lia].
Qed.

Section Adds.
  Context {N : numbers}.
  Add Ring num_ring_ewd : (nring N).
  Variables (nb transa m n : Z) (alpha : N) (pA : loc) (lda : Z) (beta : N) (pB : loc) (ldb bA bB : Z) (M : mem N).
  Let am := if transa =? PlasmaNoTrans then m else n.
  Let an := if transa =? PlasmaNoTrans then n else m.
  Hypothesis Hnb : 0 < nb.
  Hypothesis Ht : valid_trans transa.
  Hypothesis Hm : 0 <= m.
  Hypothesis Hn : 0 <= n.
  Hypothesis Hlda : Z.max 1 am <= lda.
  Hypothesis Hldb : Z.max 1 m <= ldb.
  Hypothesis HND : NoDup [bA; bB].
  Hypothesis HFR : forall b, In b [fst pA; fst pB] -> ~ In b [bA; bB].
  Hypothesis AP : apart pA lda am an pB ldb m n.

  Definition add_post (sel : Z -> Z -> Prop) (M' : mem N) : Prop :=
    (forall i j, in_matrix m n i j -> sel i j ->
       ul M' pB ldb i j = nadd (nmul alpha (op_ul M transa pA lda i j)) (nmul beta (ul M pB ldb i j))) /\
    (forall i j, in_matrix m n i j -> ~ sel i j -> ul M' pB ldb i j = ul M pB ldb i j) /\
    (forall l, ~ In (fst l) [bA; bB] -> ~ in_user pB ldb m n l -> M' l = M l).

  Lemma add_quick : forall sel, (m =? 0) || (n =? 0) || (neqb alpha n0 && neqb beta n1) = true -> add_post sel M.
  Proof.
    intros sel Q. split; [|split]; auto. intros i j [Hi Hj] _.
    rewrite !orb_true_iff, andb_true_iff, !Z.eqb_eq, !neqb_eq in Q.
    destruct Q as [[Q|Q]|[Qa Qb]]; [lia|lia|]. rewrite Qa, Qb. ring.
  Qed.

  Lemma add_region : forall (selb : Z -> Z -> bool) (sel : Z -> Z -> Prop) A B comp,
    (forall i j, selb i j = true <-> sel i j) ->
    dn nb A -> d_m A = am -> d_n A = an -> dn nb B -> d_m B = m -> d_n B = n ->
    Forall kgood comp ->
    (forall env, In (bA, homeD A (in_tiles A)) env -> In (bB, homeD B (in_tiles B)) env ->
       Forall (kdecl (home_env env)) comp) ->
    (forall M0 i j, 0 <= i < d_m B -> 0 <= j < d_n B -> at_elem M0 bB B i j (krun comp M0)
       (if selb i j then addv A B bA bB transa alpha beta M0 i j else el M0 bB B i j)) ->
    (forall M0 l, fst l <> bB -> krun comp M0 l = M0 l) ->
    region_ensures (pzge2desc pA lda bA A ++ pzge2desc pB ldb bB B ++ comp
                    ++ pzdesc2ge bA A pA lda ++ pzdesc2ge bB B pB ldb) M (add_post sel).
  Proof.
    intros selb sel A B comp HS DA A1 A2 DB B1 B2 CG CD CE CF.
    assert (F1 := HFR (fst pA)). assert (F2 := HFR (fst pB)). cbn in F1, F2.
    assert (NE : bA <> bB) by (inversion_clear HND as [|? ? N1 N2]; cbn in N1; intuition).
    assert (CM : op_m transa A = m) by (unfold op_m; rewrite A1, A2; unfold am, an; destruct (transa =? PlasmaNoTrans); reflexivity).
    assert (CN : op_n transa A = n) by (unfold op_n; rewrite A1, A2; unfold am, an; destruct (transa =? PlasmaNoTrans); reflexivity).
    eapply region_mono; [|apply (ge_region22 N nb); auto; rewrite ?A1, ?A2, ?B1, ?B2; auto; lia].
    intros M' (M3 & H1 & H2 & H3 & H4 & H5 & H6). rewrite A1, A2, B1, B2 in *.
    split; [|split].
    - intros i j [Hi Hj] Hs. rewrite H5 by assumption. destruct (CE M3 i j Hi Hj) as [_ E]. rewrite E.
      replace (selb i j) with true by (symmetry; apply HS; assumption).
      unfold addv. rewrite H2 by assumption.
      rewrite (op_el_ul N M3 M transa bA A pA lda i j).
      + ring.
      + rewrite A1, A2. exact H1.
      + rewrite CM. assumption.
      + rewrite CN. assumption.
    - intros i j [Hi Hj] Hs. rewrite H5 by assumption. destruct (CE M3 i j Hi Hj) as [_ E]. rewrite E.
      replace (selb i j) with false by (symmetry; apply not_true_iff_false; rewrite HS; assumption).
      apply H2; assumption.
    - intros l Hl Hb. destruct (in_user_dec pA lda am an l Hlda) as [Ha|Ha].
      + assert (El := in_user_block _ _ _ _ _ Ha). destruct Ha as (i & j & Hi & Hj & Eq).
        assert (G : forall X : mem N, X l = ul X pA lda i j) by (intros X; unfold ul; rewrite Eq; reflexivity).
        rewrite (G M'), (G M), H4 by assumption. rewrite (el_ext N (krun comp M3) M3 bA A).
        * apply H1; assumption.
        * intros x Hx. apply CF. congruence.
      + rewrite H6 by assumption. cbn in Hl. rewrite CF by intuition. apply H3. cbn. assumption.
  Qed.

  Lemma zgeadd_main : driver_ensures (zgeadd nb transa m n alpha pA lda beta pB ldb bA bB) M (add_post (fun _ _ => True)).
  Proof.
    unfold zgeadd. fold am an. unfold ew_trans. rewrite (valid_trans_b transa Ht). cbn [negb].
    replace (m <? 0) with false by (symmetry; apply Z.ltb_ge; lia).
    replace (n <? 0) with false by (symmetry; apply Z.ltb_ge; lia). cbv zeta.
    replace (lda <? Z.max 1 am) with false by (symmetry; apply Z.ltb_ge; lia).
    replace (ldb <? Z.max 1 m) with false by (symmetry; apply Z.ltb_ge; lia).
    assert (Ham : 0 <= am) by (unfold am; destruct (transa =? PlasmaNoTrans); lia).
    assert (Han : 0 <= an) by (unfold an; destruct (transa =? PlasmaNoTrans); lia).
    destruct ((m =? 0) || (n =? 0) || (neqb alpha n0 && neqb beta n1)) eqn:QR.
    - split; [reflexivity|]. apply add_quick. assumption.
    - destruct (ge_create_succeeds nb am an Hnb Ham Han) as (A & EA & _). rewrite EA.
      destruct (ge_create_succeeds nb m n Hnb Hm Hn) as (B & EB & _). rewrite EB.
      cbn [with_desc driver_ensures].
      destruct (ge_create_dn _ _ _ _ _ EA) as (DA & A1 & A2 & _).
      destruct (ge_create_dn _ _ _ _ _ EB) as (DB & B1 & B2 & _). clear EA EB.
      assert (CM : op_m transa A = d_m B) by (unfold op_m; rewrite A1, A2, B1; unfold am, an; destruct (transa =? PlasmaNoTrans); reflexivity).
      assert (CN : op_n transa A = d_n B) by (unfold op_n; rewrite A1, A2, B2; unfold am, an; destruct (transa =? PlasmaNoTrans); reflexivity).
      assert (NE : bA <> bB) by (inversion_clear HND as [|? ? N1 N2]; cbn in N1; intuition).
      rewrite !orb_false_iff, !Z.eqb_neq in QR. destruct QR as [[Q1 Q2] Q3].
      unfold omp_async_zgeadd. cbv zeta.
      replace (if transa =? PlasmaNoTrans then d_m A else d_n A) with (d_m B) by (rewrite <- CM; reflexivity).
      replace (d_m B =? 0) with false by (symmetry; apply Z.eqb_neq; lia). rewrite orb_false_r, Q3.
      apply (add_region (fun _ _ => true)); auto.
      + intros i j; split; auto.
      + apply (pzgeadd_kgood nb); auto.
      + intros env. apply (pzgeadd_kdecl nb); auto.
      + apply (pzgeadd_at nb); auto.
      + intros M0 l. apply pzgeadd_frame.
  Qed.

  Lemma ztradd_main : forall uplo, valid_uplo uplo ->
    driver_ensures (ztradd nb uplo transa m n alpha pA lda beta pB ldb bA bB) M (add_post (selects uplo)).
  Proof.
    intros uplo Hu.
    unfold ztradd. fold am an. unfold ew_trans, ew_uplo. rewrite (valid_trans_b transa Ht), (uplo_b uplo Hu). cbn [negb].
    replace (m <? 0) with false by (symmetry; apply Z.ltb_ge; lia).
    replace (n <? 0) with false by (symmetry; apply Z.ltb_ge; lia). cbv zeta.
    replace (lda <? Z.max 1 am) with false by (symmetry; apply Z.ltb_ge; lia).
    replace (ldb <? Z.max 1 m) with false by (symmetry; apply Z.ltb_ge; lia).
    assert (Ham : 0 <= am) by (unfold am; destruct (transa =? PlasmaNoTrans); lia).
    assert (Han : 0 <= an) by (unfold an; destruct (transa =? PlasmaNoTrans); lia).
    destruct ((m =? 0) || (n =? 0) || (neqb alpha n0 && neqb beta n1)) eqn:QR.
    - split; [reflexivity|]. apply add_quick. assumption.
    - destruct (ge_create_succeeds nb am an Hnb Ham Han) as (A & EA & _). rewrite EA.
      destruct (ge_create_succeeds nb m n Hnb Hm Hn) as (B & EB & _). rewrite EB.
      cbn [with_desc driver_ensures].
      destruct (ge_create_dn _ _ _ _ _ EA) as (DA & A1 & A2 & _).
      destruct (ge_create_dn _ _ _ _ _ EB) as (DB & B1 & B2 & _). clear EA EB.
      assert (CM : op_m transa A = d_m B) by (unfold op_m; rewrite A1, A2, B1; unfold am, an; destruct (transa =? PlasmaNoTrans); reflexivity).
      assert (CN : op_n transa A = d_n B) by (unfold op_n; rewrite A1, A2, B2; unfold am, an; destruct (transa =? PlasmaNoTrans); reflexivity).
      assert (NE : bA <> bB) by (inversion_clear HND as [|? ? N1 N2]; cbn in N1; intuition).
      rewrite !orb_false_iff, !Z.eqb_neq in QR. destruct QR as [[Q1 Q2] Q3].
      unfold omp_async_ztradd. cbv zeta.
      replace (if transa =? PlasmaNoTrans then d_m A else d_n A) with (d_m B) by (rewrite <- CM; reflexivity).
      replace (d_m B =? 0) with false by (symmetry; apply Z.eqb_neq; lia). rewrite orb_false_r, Q3.
      apply (add_region (uplo_sel uplo)); auto.
      + intros i j. rewrite part_sel by (right; assumption). unfold in_part. split; [intros [E|H]; auto|auto].
        destruct Hu as [->| ->]; discriminate.
      + apply (pztradd_kgood nb); auto.
      + intros env. apply (pztradd_kdecl nb); auto.
      + intros M0 i j. apply (pztradd_at nb); auto.
      + intros M0 l. apply pztradd_frame. assumption.
  Qed.

  Lemma zgeadd_all : driver_ensures (zgeadd nb transa m n alpha pA lda beta pB ldb bA bB) M (fun M' =>
    (forall i j, in_matrix m n i j ->
       ul M' pB ldb i j = nadd (nmul alpha (op_ul M transa pA lda i j)) (nmul beta (ul M pB ldb i j))) /\
    (forall l, ~ In (fst l) [bA; bB] -> ~ in_user pB ldb m n l -> M' l = M l)).
  Proof.
    eapply driver_mono; [|apply zgeadd_main]. intros M' (H1 & _ & H2). split; auto.
  Qed.
End Adds.

Lemma zlacpy_main : forall (N : numbers) nb uplo transa m n pA lda pB ldb bA bB (M : mem N),
  0 < nb -> valid_part uplo -> valid_trans transa -> 0 <= m -> 0 <= n ->
  (transa <> PlasmaNoTrans -> m = n) ->
  Z.max 1 m <= lda -> Z.max 1 m <= ldb -> NoDup [bA; bB] ->
  (forall b, In b [fst pA; fst pB] -> ~ In b [bA; bB]) ->
  apart pA lda m n pB ldb m n ->
  driver_ensures (zlacpy nb uplo transa m n pA lda pB ldb bA bB) M (fun M' =>
    (forall i j, in_matrix m n i j -> in_part uplo i j ->
       if transa =? PlasmaNoTrans then ul M' pB ldb i j = ul M pA lda i j
       else if transa =? PlasmaTrans then ul M' pB ldb j i = ul M pA lda i j
       else ul M' pB ldb j i = nconj (ul M pA lda i j)) /\
    (forall i j, in_matrix m n i j -> ~ in_part uplo i j ->
       if transa =? PlasmaNoTrans then ul M' pB ldb i j = ul M pB ldb i j
       else ul M' pB ldb j i = ul M pB ldb j i) /\
    (forall l, ~ In (fst l) [bA; bB] -> ~ in_user pB ldb m n l -> M' l = M l)).
Proof.
  intros N nb uplo transa m n pA lda pB ldb bA bB M Hnb Hu Ht Hm Hn Hsq Hlda Hldb HND HFR AP.
  unfold zlacpy. unfold ew_trans. rewrite (valid_trans_b transa Ht), (part_b uplo Hu). cbn [negb].
  replace (m <? 0) with false by (symmetry; apply Z.ltb_ge; lia).
  replace (n <? 0) with false by (symmetry; apply Z.ltb_ge; lia).
  replace (negb (transa =? PlasmaNoTrans) && negb (m =? n)) with false.
  2: { symmetry. destruct (Z.eqb_spec transa PlasmaNoTrans); [reflexivity|]. rewrite Hsq by assumption.
       rewrite Z.eqb_refl. reflexivity. }
  replace (lda <? Z.max 1 m) with false by (symmetry; apply Z.ltb_ge; lia).
  replace (ldb <? Z.max 1 (if transa =? PlasmaNoTrans then m else n)) with false.
  2: { symmetry. apply Z.ltb_ge. destruct (Z.eqb_spec transa PlasmaNoTrans); [assumption|]. rewrite <- Hsq; assumption. }
  destruct (Z.eqb_spec (Z.min n m) 0) as [Q|Q].
  - split; [reflexivity|]. split; [|split]; auto; intros i j [Hi Hj]; exfalso; lia.
  - destruct (ge_create_succeeds nb m n Hnb Hm Hn) as (A & EA & _). rewrite EA.
    cbn [with_desc driver_ensures].
    destruct (ge_create_dn _ _ _ _ _ EA) as (DA & A1 & A2 & _). clear EA.
    assert (NE : bA <> bB) by (inversion_clear HND as [|? ? N1 N2]; cbn in N1; intuition).
    assert (CM : op_m transa A = d_m A).
    { unfold op_m. destruct (Z.eqb_spec transa PlasmaNoTrans); [reflexivity|]. rewrite A1, A2. symmetry. auto. }
    assert (CN : op_n transa A = d_n A).
    { unfold op_n. destruct (Z.eqb_spec transa PlasmaNoTrans); [reflexivity|]. rewrite A1, A2. auto. }
    eapply region_mono; [|apply (ge_region2 N nb); auto; rewrite ?A1, ?A2; auto; try lia].
    2: { apply (pzlacpy_kgood nb); auto using part3. }
    2: { intros env. apply (pzlacpy_kdecl nb); auto using part3. }
    intros M' (M3 & H1 & H2 & H3 & H4 & H5). rewrite A1, A2 in H1, H2, H4, H5.
    assert (V : forall i j, 0 <= i < m -> 0 <= j < n -> ul M' pB ldb i j
      = if cpsel uplo transa i j then op_ul M transa pA lda i j else ul M pB ldb i j).
    { intros i j Hi Hj. rewrite H4 by assumption.
      destruct (pzlacpy_at nb A A bA bB uplo transa DA DA NE (part3 _ Hu) CM CN M3 i j) as [_ E]; [rewrite A1; lia|rewrite A2; lia|].
      rewrite E. rewrite H2 by assumption.
      rewrite (op_el_ul N M3 M transa bA A pA lda i j); [reflexivity|rewrite A1, A2; exact H1|rewrite CM, A1; lia|rewrite CN, A2; lia]. }
    split; [|split].
    + intros i j [Hi Hj] HS. apply part_sel in HS; [|assumption].
      unfold cpsel, op_ul in V. destruct (Z.eqb_spec transa PlasmaNoTrans) as [E|E].
      * rewrite V by assumption. rewrite HS. reflexivity.
      * assert (m = n) by auto. destruct (transa =? PlasmaTrans); rewrite V by lia; rewrite HS; reflexivity.
    + intros i j [Hi Hj] HS. rewrite <- part_sel in HS by assumption. apply not_true_iff_false in HS.
      unfold cpsel in V. destruct (Z.eqb_spec transa PlasmaNoTrans) as [E|E].
      * rewrite V by assumption. rewrite HS. reflexivity.
      * assert (m = n) by auto. rewrite V by lia. rewrite HS. reflexivity.
    + intros l Hl Hx. rewrite H5 by assumption. cbn in Hl.
      rewrite (pzlacpy_frame A A bA bB uplo transa (part3 _ Hu)) by intuition. apply H3. cbn. assumption.
Qed.

Lemma ew_one_post : forall V (M M3 M' : mem V) bA A pA lda m n comp (val : Z -> Z -> V -> V),
  d_m A = m -> d_n A = n ->
  (forall i j, 0 <= i < d_m A -> 0 <= j < d_n A -> el M3 bA A i j = ul M pA lda i j) ->
  (forall l, fst l <> bA -> M3 l = M l) ->
  (forall i j, 0 <= i < d_m A -> 0 <= j < d_n A -> ul M' pA lda i j = el (krun comp M3) bA A i j) ->
  (forall l, ~ in_user pA lda (d_m A) (d_n A) l -> M' l = krun comp M3 l) ->
  (forall i j, 0 <= i < d_m A -> 0 <= j < d_n A ->
     at_elem M3 bA A i j (krun comp M3) (val i j (el M3 bA A i j))) ->
  (forall l, fst l <> bA -> krun comp M3 l = M3 l) ->
  (forall i j, in_matrix m n i j -> ul M' pA lda i j = val i j (ul M pA lda i j)) /\
  (forall l, fst l <> bA -> ~ in_user pA lda m n l -> M' l = M l).
Proof.
  intros V M M3 M' bA A pA lda m n comp val A1 A2 H1 H2 H3 H4 HE HF. rewrite A1, A2 in *. split.
  - intros i j [Hi Hj]. rewrite H3 by assumption. destruct (HE i j Hi Hj) as [_ E]. rewrite E, H1 by assumption. reflexivity.
  - intros l Hl Hx. rewrite H4, HF, H2 by assumption. reflexivity.
Qed.

Lemma zlascl_main : forall (F : fields) nb uplo (cfrom cto : F) m n pA lda bA (M : mem F),
  0 < nb -> valid_part uplo -> cfrom <> n0 -> 0 <= m -> 0 <= n -> Z.max 1 m <= lda -> fst pA <> bA ->
  driver_ensures (zlascl nb uplo cfrom cto m n pA lda bA) M (fun M' =>
    (forall i j, in_matrix m n i j -> in_part uplo i j ->
       nmul cfrom (ul M' pA lda i j) = nmul cto (ul M pA lda i j)) /\
    (forall i j, in_matrix m n i j -> ~ in_part uplo i j -> ul M' pA lda i j = ul M pA lda i j) /\
    (forall l, fst l <> bA -> ~ in_user pA lda m n l -> M' l = M l)).
Proof.
  intros F nb uplo cfrom cto m n pA lda bA M Hnb Hu Hc Hm Hn Hlda HFR.
  unfold zlascl. rewrite (part_b uplo Hu). cbn [negb].
  replace (neqb cfrom n0) with false by (symmetry; apply not_true_iff_false; rewrite neqb_eq; assumption).
  replace (m <? 0) with false by (symmetry; apply Z.ltb_ge; lia).
  replace (n <? 0) with false by (symmetry; apply Z.ltb_ge; lia).
  replace (lda <? Z.max 1 m) with false by (symmetry; apply Z.ltb_ge; lia).
  destruct (Z.eqb_spec (Z.min n m) 0) as [Q|Q].
  - split; [reflexivity|]. split; [|split]; auto; intros i j [Hi Hj]; exfalso; lia.
  - destruct (ge_create_succeeds nb m n Hnb Hm Hn) as (A & EA & _). rewrite EA.
    cbn [with_desc driver_ensures].
    destruct (ge_create_dn _ _ _ _ _ EA) as (DA & A1 & A2 & _). clear EA.
    eapply region_mono; [|apply (ge_region1 F nb); auto; rewrite ?A1, ?A2; auto; try lia].
    2: { apply (pzlascl_kgood nb); auto using part3. }
    2: { intros env. apply pzlascl_kdecl; auto using part3. }
    intros M' (M3 & H1 & H2 & H3 & H4).
    destruct (ew_one_post F M M3 M' bA A pA lda m n (pzlascl uplo cfrom cto bA A)
      (fun i j c => if uplo_sel uplo i j then nmul (nmul cto (finv cfrom)) c else c) A1 A2 H1 H2 H3 H4) as [P1 P2].
    { intros i j Hi Hj. apply (pzlascl_at nb); auto using part3. }
    { intros l Hl. apply pzlascl_frame; auto using part3. }
    split; [|split]; auto.
    + intros i j HI HS. rewrite P1 by assumption. apply part_sel in HS; [|assumption]. rewrite HS.
      rewrite <- (Rmul_1_l (nring F) (nmul cto (ul M pA lda i j))), <- (finv_l F cfrom Hc).
      pose proof (nring F) as RT.
      rewrite !(Rmul_assoc RT). apply f_equal2; [|reflexivity].
      rewrite (Rmul_comm RT cfrom cto), (Rmul_comm RT (finv cfrom) cfrom), <- (Rmul_assoc RT).
      rewrite (Rmul_comm RT (nmul cfrom (finv cfrom)) cto). reflexivity.
    + intros i j HI HS. rewrite P1 by assumption. rewrite <- part_sel in HS by assumption.
      apply not_true_iff_false in HS. rewrite HS. reflexivity.
Qed.

Lemma zlaset_main : forall (N : numbers) nb uplo m n (alpha beta : N) pA lda bA (M : mem N),
  0 < nb -> valid_part uplo -> 0 <= m -> 0 <= n -> Z.max 1 m <= lda -> fst pA <> bA ->
  driver_ensures (zlaset nb uplo m n alpha beta pA lda bA) M (fun M' =>
    (forall i j, in_matrix m n i j -> in_part uplo i j -> i <> j -> ul M' pA lda i j = alpha) /\
    (forall i, in_matrix m n i i -> ul M' pA lda i i = beta) /\
    (forall i j, in_matrix m n i j -> ~ in_part uplo i j -> ul M' pA lda i j = ul M pA lda i j) /\
    (forall l, fst l <> bA -> ~ in_user pA lda m n l -> M' l = M l)).
Proof.
  intros N nb uplo m n alpha beta pA lda bA M Hnb Hu Hm Hn Hlda HFR.
  unfold zlaset. rewrite (part_b uplo Hu). cbn [negb].
  replace (m <? 0) with false by (symmetry; apply Z.ltb_ge; lia).
  replace (n <? 0) with false by (symmetry; apply Z.ltb_ge; lia).
  replace (lda <? Z.max 1 m) with false by (symmetry; apply Z.ltb_ge; lia).
  destruct (Z.eqb_spec (Z.min n m) 0) as [Q|Q].
  - split; [reflexivity|]. split; [|split; [|split]]; auto.
    + intros i j [Hi Hj]; exfalso; lia.
    + intros i [Hi Hj]; exfalso; lia.
  - destruct (ge_create_succeeds nb m n Hnb Hm Hn) as (A & EA & _). rewrite EA.
    cbn [with_desc driver_ensures].
    destruct (ge_create_dn _ _ _ _ _ EA) as (DA & A1 & A2 & _).
    assert (HT : d_type A <> PlasmaGeneralBand).
    { unfold ge_create in EA.
      destruct (general_create_ok _ _ _ _ _ _ _ _ _ _ _ (Z.le_refl 0) (Z.le_refl 0) EA) as (G & _).
      rewrite (gk_type _ G). discriminate. }
    clear EA.
    eapply region_mono; [|apply (ge_region1 N nb); auto; rewrite ?A1, ?A2; auto; try lia].
    2: { apply (pzlaset_kgood nb); auto using part3. }
    2: { intros env. apply (pzlaset_kdecl nb); auto using part3. }
    intros M' (M3 & H1 & H2 & H3 & H4).
    destruct (ew_one_post N M M3 M' bA A pA lda m n (pzlaset uplo alpha beta bA A)
      (las_val uplo alpha beta) A1 A2 H1 H2 H3 H4) as [P1 P2].
    { intros i j Hi Hj. apply (pzlaset_at nb); auto using part3. }
    { intros l Hl. destruct (pzlaset_at nb A bA uplo alpha beta DA HT (part3 _ Hu) M3 0 0) as [E _]; [lia|lia|]. auto. }
    unfold las_val in P1. split; [|split; [|split]]; auto.
    + intros i j HI HS Hne. rewrite P1 by assumption. apply part_sel in HS; [|assumption]. rewrite HS.
      apply Z.eqb_neq in Hne. rewrite Hne. reflexivity.
    + intros i HI. rewrite P1 by assumption. rewrite Z.eqb_refl.
      replace (uplo_sel uplo i i) with true; [reflexivity|]. symmetry. apply part_sel; [assumption|].
      unfold in_part, selects. destruct Hu as [->|[->| ->]]; [left; reflexivity|right; left|right; right]; split; auto; lia.
    + intros i j HI HS. rewrite P1 by assumption. rewrite <- part_sel in HS by assumption.
      apply not_true_iff_false in HS. rewrite HS. reflexivity.
Qed.
