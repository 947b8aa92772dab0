(* What plasma_zpbsv returns, in terms of the specification; cases that plasma_zpbtrs and
   plasma_zpbsv get wrong. *)
From Coq Require Import ZArith List Bool Lia Ring Reals Lra.
From Verif Require Import Base NumModel NumProofs FieldModel TaskModel TaskSpec DescModel DescSpec
  DescDriverModel MatModel MatSpec GuardModel GuardSpec DriverModel DriverSpec ComplexInstances
  PotrfModel PotrfSpec CholProofs HpdProofs PotrfDriverProofs BandModel BandSpec PbtrfMainProofs PbtrsModel PbsvProofs.
Import ListNotations.
Open Scope Z_scope.

Section Main.
  Context {F : fields}.
  Add Ring num_ring_pbsv2 : (nring F).
  Variables (R : roots F) (rp : F -> F) (S : Z -> Z -> F).
  Variables (nb uplo n kd nrhs : Z) (pA : loc) (ld : Z) (pB : loc) (ldb bA bB : Z) (M : mem F).
  Hypothesis Hrp : forall x, nconj x = x -> rp x = x.
  Hypothesis Hb : 0 < nb.
  Hypothesis Hu : valid_uplo uplo.
  Hypothesis Hk : 0 <= kd < n.
  Hypothesis Hr : 0 < nrhs.
  Hypothesis HL : kd < ld.
  Hypothesis LB : n <= ldb.
  Hypothesis ND : NoDup [bA; bB].
  Hypothesis HF : forall b, In b [fst pA; fst pB] -> ~ In b [bA; bB].
  Hypothesis AP : forall l, in_user_band uplo kd pA ld n l -> ~ in_user pB ldb n nrhs l.
  Hypothesis HS : is_hermitian_band M uplo kd pA ld n S.

  Let HH : forall i j, 0 <= i < n -> 0 <= j < n -> S j i = nconj (S i j).
  Proof. destruct HS as (_ & _ & HS3). intros; apply HS3; split; assumption. Qed.

  Lemma zpbsv_solves :
    gdriver_ensures (zpbsv R rp nb uplo n kd nrhs pA ld pB ldb bA bB) M (fun M' st =>
      (st = 0 ->
        (exists T, is_band_triangle M' uplo kd pA ld n T /\
           (forall i, 0 <= i < n -> exists d, rt R d = Some (T i i)) /\
           (forall i j, in_matrix n n i j -> factor_product uplo n T i j = S i j)) /\
        (forall i j, in_matrix n nrhs i j ->
           nsum (fun l => nmul (S i l) (ul M' pB ldb l j)) 0 n = ul M pB ldb i j)) /\
      (forall l, ~ In (fst l) [bA; bB] -> ~ in_user_band uplo kd pA ld n l -> ~ in_user pB ldb n nrhs l -> M' l = M l)).
  Proof.
    eapply gdriver_mono; [|apply (zpbsv_core R rp Hrp S); eassumption].
    intros M' st (L & CE & LZ & H0 & _ & _ & HFR). split; [|assumption]. intros Z0. destruct (H0 Z0) as (FB & H1 & H2).
    split; [|assumption]. exists (fmat uplo L). split; [|split].
    - intros i j HM. split; [intros HI; symmetry; auto|]. apply (fmat_out uplo n kd L Hu LZ); assumption.
    - apply (fmat_root R rp uplo n S L CE FB).
    - apply (fmat_product R rp Hrp uplo n S L Hu CE FB HH).
  Qed.

  Lemma zpbsv_status : forall P : positivity F, has_roots P R -> 0 < kd ->
    gdriver_ensures (zpbsv R rp nb uplo n kd nrhs pA ld pB ldb bA bB) M (fun M' st =>
      (st = 0 /\ pos_def P n S) \/
      (0 < st <= n /\ pos_def P (st - 1) S /\ ~ pos_def P st S)).
  Proof.
    intros P HR KP. eapply gdriver_mono; [|apply (zpbsv_core R rp Hrp S); eassumption].
    intros M' st (L & CE & _ & _ & _ & ST & _). specialize (ST KP).
    destruct (Z.eq_dec st 0) as [E|E].
    - left. split; [assumption|]. apply (good_pd R rp P Hrp n S L CE HH n); [lia|].
      intros j Hj. rewrite ST in E. apply (first_bad_zero _ 0 n E ltac:(lia) j Hj).
    - right. symmetry in ST. destruct (first_bad_pos _ 0 n st ltac:(lia) ST E) as (S1 & S2 & S3).
      split; [assumption|]. split.
      + apply (good_pd R rp P Hrp n S L CE HH); [lia|]. intros j Hj. apply S3. lia.
      + replace st with (st - 1 + 1) by lia. apply (bad_not_pd R rp P Hrp HR n S L CE HH); [lia| |assumption].
        intros j Hj. apply S3. lia.
  Qed.

  Lemma zpbsv_status_any : forall P : positivity F, has_roots P R -> @n1 F <> n0 ->
    gdriver_ensures (zpbsv R rp nb uplo n kd nrhs pA ld pB ldb bA bB) M (fun M' st =>
      (st = 0 /\ pos_def P n S) \/ (0 < st <= n /\ ~ pos_def P st S)).
  Proof.
    intros P HR N10. destruct (Z.eq_dec kd 0) as [K0|K0].
    2:{ eapply gdriver_mono; [|apply (zpbsv_status P HR); lia]. intros M' st [H|(H1 & _ & H2)]; auto. }
    eapply gdriver_mono; [|apply (zpbsv_core R rp Hrp S); eassumption].
    intros M' st (L & CE & LZ & H0 & HN & _).
    destruct (Z.eq_dec st 0) as [E|E].
    - left. split; [assumption|]. destruct (H0 E) as [FB _]. apply (good_pd R rp P Hrp n S L CE HH n); [lia|].
      intros j Hj. apply (first_bad_zero _ 0 n FB ltac:(lia) j Hj).
    - right. destruct (HN E) as (k & Hk1 & Hk2 & ST). symmetry in ST.
      destruct (first_bad_pos _ (k * nb) (Z.min ((k + 1) * nb) n) st ltac:(nia) ST E) as (S1 & S2 & S3).
      assert (RG : 0 < st <= n) by nia. split; [assumption|]. intros PD.
      assert (PV : piv L S (st - 1) = S (st - 1) (st - 1)).
      { unfold piv. rewrite nsum_0; [ring|]. intros l Hl. rewrite LZ by lia. ring. }
      assert (RE : nconj (S (st - 1) (st - 1)) = S (st - 1) (st - 1)) by (symmetry; apply HH; lia).
      cbv beta in S2. rewrite PV in S2. rewrite Hrp in S2 by assumption. unfold badp in S2.
      apply (HR (S (st - 1) (st - 1)) RE).
      + specialize (PD (fun i => if i =? st - 1 then n1 else n0)).
        rewrite (nsum_pick _ 0 st (st - 1)) in PD; [|lia|].
        * rewrite (nsum_pick _ 0 st (st - 1)) in PD; [|lia|].
          -- rewrite Z.eqb_refl, nconj_1 in PD.
             assert (EQ : nmul n1 (nmul (S (st - 1) (st - 1)) n1) = S (st - 1) (st - 1)) by ring.
             rewrite EQ in PD. apply PD. exists (st - 1). rewrite Z.eqb_refl. split; [lia|assumption].
          -- intros i Hi Hne. apply Z.eqb_neq in Hne. rewrite Hne. ring.
        * intros i Hi Hne. apply nsum_0. intros j Hj. apply Z.eqb_neq in Hne. rewrite Hne, nconj_0. ring.
      + destruct (rt R (S (st - 1) (st - 1))); [discriminate|reflexivity].
  Qed.
End Main.

Lemma zpbtrs_empty : exists nb uplo n kd nrhs ldab ldb,
  0 < nb /\ valid_uplo uplo /\ 0 <= n /\ 0 <= kd /\ 0 <= nrhs /\ Z.max 1 (1 + kd) <= ldab /\ Z.max 1 n <= ldb /\ n = 0 /\
  forall (F : fields) pA pB bA bB,
    zpbtrs (F := F) nb uplo n kd nrhs pA ldab pB ldb bA bB = Returns PlasmaErrorIllegalValue.
Proof.
  exists 2, PlasmaLower, 0, 0, 1, 1, 1. repeat split; try lia. right. reflexivity.
Qed.

Lemma zpbtrs_wide_band : exists nb uplo n kd nrhs ldab ldb,
  0 < nb /\ valid_uplo uplo /\ 0 < n /\ 0 <= kd /\ 0 < nrhs /\ Z.max 1 (1 + kd) <= ldab /\ Z.max 1 n <= ldb /\
  forall (F : fields) pA pB bA bB,
    zpbtrs (F := F) nb uplo n kd nrhs pA ldab pB ldb bA bB = Returns PlasmaErrorIllegalValue.
Proof.
  exists 2, PlasmaLower, 1, 1, 1, 2, 1. repeat split; try lia. right. reflexivity.
Qed.

Lemma zpbsv_no_rhs : exists (S : Z -> Z -> C_fields) n kd M,
  0 <= kd < n /\ is_hermitian_band M PlasmaLower kd (0, 0) (kd + 1) n S /\
  ~ pos_def C_positivity n S /\
  forall rp nb, 0 < nb ->
    gdriver_ensures (zpbsv C_roots rp nb PlasmaLower n kd 0 (0, 0) (kd + 1) (1, 0) n 2 3) M (fun M' st =>
      st = 0 /\ M' = M /\ ~ exists T, is_band_triangle M' PlasmaLower kd (0, 0) (kd + 1) n T /\
        forall i j, in_matrix n n i j -> factor_product PlasmaLower n T i j = S i j).
Proof.
  exists (fun _ _ => (-1, 0)%R), 1, 0, (fun _ => (-1, 0)%R). split; [lia|]. split; [|split].
  - split; [reflexivity|]. split; [intros i j [Hi Hj] H; exfalso; apply H; lia|].
    intros. unfold nconj. cbn. unfold cconj. cbn. f_equal. lra.
  - intros H. specialize (H (fun _ => (1, 0)%R)). destruct H as [H _].
    + exists 0. split; [lia|]. intros E. apply (f_equal fst) in E. cbn in E. lra.
    + unfold nsum in H. change (zrange 0 1) with [0] in H. cbn in H. lra.
  - intros rp nb Hb. cbn. split; [reflexivity|]. split; [reflexivity|]. intros (T & H1 & H2).
    destruct (H1 0 0) as (H3 & _); [split; lia|].
    assert (E : T 0 0 = (-1, 0)%R) by (apply H3; right; split; [reflexivity|lia]).
    specialize (H2 0 0 ltac:(split; lia)). unfold factor_product in H2. cbn in H2. unfold nsum in H2.
    change (zrange 0 1) with [0] in H2. cbn in H2. rewrite E in H2. apply (f_equal fst) in H2. cbn in H2. lra.
Qed.
