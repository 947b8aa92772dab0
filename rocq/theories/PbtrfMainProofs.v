(* What plasma_zpbtrf returns, in terms of the specification. *)
From Coq Require Import ZArith List Bool Lia Ring.
From Verif Require Import Base NumModel NumProofs FieldModel TaskModel TaskSpec DescModel DescSpec
  DescDriverModel MatModel MatSpec GuardModel GuardSpec DriverModel DriverSpec
  PotrfModel PotrfSpec CholProofs HpdProofs PotrfDriverProofs BandModel BandSpec PbtrfDriverProofs.
Import ListNotations.
Open Scope Z_scope.

Section Main.
  Context {F : fields}.
  Add Ring num_ring_pbtrf2 : (nring F).

  Lemma zpbtrf_factor : forall (R : roots F) (rp : F -> F) S nb uplo n kd pA ld bA M,
    (forall x, nconj x = x -> rp x = x) ->
    0 < nb -> valid_uplo uplo -> 0 <= n -> 0 <= kd -> (0 < n -> kd < n) -> kd < ld -> fst pA <> bA ->
    is_hermitian_band M uplo kd pA ld n S ->
    gdriver_ensures (zpbtrf R rp nb uplo n kd pA ld bA) M (fun M' st =>
      (st = 0 -> exists T,
        is_band_triangle M' uplo kd pA ld n T /\
        (forall i, 0 <= i < n -> exists d, rt R d = Some (T i i)) /\
        (forall i j, in_matrix n n i j -> factor_product uplo n T i j = S i j)) /\
      (forall l, fst l <> bA -> ~ in_user_band uplo kd pA ld n l -> M' l = M l)).
  Proof.
    intros R rp S nb uplo n kd pA ld bA M Hrp Hb Hu Hn Hk Hkn HL HP HS.
    eapply gdriver_mono; [|apply (zpbtrf_core R rp Hrp S); eassumption].
    intros M' st (L & CE & LZ & H0 & _ & _ & HF). split; [|assumption]. intros Z0. destruct (H0 Z0) as [FB H1]. clear H0.
    destruct HS as (HS1 & HS2 & HS3).
    assert (HH : forall i j, 0 <= i < n -> 0 <= j < n -> S j i = nconj (S i j)) by (intros; apply HS3; split; assumption).
    assert (HG : good R rp S L n) by (intros j Hj; apply (first_bad_zero _ 0 n FB ltac:(lia) j Hj)).
    exists (fun i j => if uplo =? PlasmaLower then (if j <=? i then L i j else n0)
                       else (if i <=? j then nconj (L j i) else n0)).
    split; [|split].
    - intros i j [Hi Hj]. destruct Hu as [->| ->]; cbn; split.
      + intros [[_ B]|[E _]]; [|discriminate]. replace (i <=? j) with true by (symmetry; apply Z.leb_le; lia).
        rewrite <- H1 by (try split; lia). unfold bview. cbn. apply nconj_conj.
      + intros NB. destruct (Z.leb_spec i j) as [LE|GT]; [|reflexivity].
        rewrite LZ; [apply nconj_0|lia| |lia]. apply Znot_ge_lt. intros GE. apply NB. left. split; [reflexivity|lia].
      + intros [[E _]|[_ B]]; [discriminate|]. replace (j <=? i) with true by (symmetry; apply Z.leb_le; lia).
        rewrite <- H1 by (try split; lia). reflexivity.
      + intros NB. destruct (Z.leb_spec j i) as [LE|GT]; [|reflexivity].
        apply LZ; [lia| |lia]. apply Znot_ge_lt. intros GE. apply NB. right. split; [reflexivity|lia].
    - intros i Hi. exists (rp (piv L S i)). rewrite Z.leb_refl. pose proof (HG i Hi) as B. unfold badp in B.
      pose proof (chol_diag_real R rp n S L CE i Hi) as RL. destruct (CE i Hi) as [D _]. unfold rtot in D.
      destruct (rt R (rp (piv L S i))) eqn:E; [|discriminate]. rewrite RL, D. destruct (uplo =? PlasmaLower); reflexivity.
    - intros i j [Hi Hj]. rewrite <- (gram_off R rp Hrp n S L CE HH n i j ltac:(lia) HG Hi Hj ltac:(lia)).
      unfold factor_product. destruct Hu as [->| ->]; cbn.
      + apply nsum_ext. intros l Hl. destruct (l <=? i), (l <=? j); rewrite ?nconj_conj, ?nconj_0; reflexivity.
      + reflexivity.
  Qed.

  (* with at least one diagonal beside the main one the diagonal tiles wait for each other *)
  Lemma zpbtrf_status : forall (R : roots F) (rp : F -> F) (P : positivity F) S nb uplo n kd pA ld bA M,
    (forall x, nconj x = x -> rp x = x) -> has_roots P R ->
    0 < nb -> valid_uplo uplo -> 0 <= n -> 0 < kd -> (0 < n -> kd < n) -> kd < ld -> fst pA <> bA ->
    is_hermitian_band M uplo kd pA ld n S ->
    gdriver_ensures (zpbtrf R rp nb uplo n kd pA ld bA) M (fun M' st =>
      (st = 0 /\ pos_def P n S) \/
      (0 < st <= n /\ pos_def P (st - 1) S /\ ~ pos_def P st S)).
  Proof.
    intros R rp P S nb uplo n kd pA ld bA M Hrp HR Hb Hu Hn Hk Hkn HL HP HS.
    eapply gdriver_mono; [|apply (zpbtrf_core R rp Hrp S); try eassumption; lia].
    intros M' st (L & CE & _ & _ & _ & ST & _). specialize (ST Hk). destruct HS as (_ & _ & HS3).
    assert (HH : forall i j, 0 <= i < n -> 0 <= j < n -> S j i = nconj (S i j)) by (intros; apply HS3; split; assumption).
    destruct (Z.eq_dec st 0) as [E|E].
    - left. split; [assumption|]. apply (good_pd R rp P Hrp n S L CE HH n); [lia|].
      intros j Hj. rewrite ST in E. apply (first_bad_zero _ 0 n E ltac:(lia) j Hj).
    - right. symmetry in ST. destruct (first_bad_pos _ 0 n st ltac:(lia) ST E) as (S1 & S2 & S3).
      split; [assumption|]. split.
      + apply (good_pd R rp P Hrp n S L CE HH); [lia|]. intros j Hj. apply S3. lia.
      + replace st with (st - 1 + 1) by lia. apply (bad_not_pd R rp P Hrp HR n S L CE HH); [lia| |assumption].
        intros j Hj. apply S3. lia.
  Qed.

  Lemma nsum_pick : forall (f : Z -> F) a b k, a <= k < b -> (forall i, a <= i < b -> i <> k -> f i = n0) -> nsum f a b = f k.
  Proof.
    intros f a b k Hk H. rewrite (nsum_app _ _ a k b), (nsum_app _ _ k (k + 1) b) by lia.
    rewrite (nsum_0 _ f a k) by (intros; apply H; lia). rewrite (nsum_0 _ f (k + 1) b) by (intros; apply H; lia).
    rewrite nsum_snoc, nsum_nil by lia. ring.
  Qed.

  (* for every band: a nonzero code names a leading matrix that is not positive definite *)
  Lemma zpbtrf_status_any : forall (R : roots F) (rp : F -> F) (P : positivity F) S nb uplo n kd pA ld bA M,
    (forall x, nconj x = x -> rp x = x) -> has_roots P R -> @n1 F <> n0 ->
    0 < nb -> valid_uplo uplo -> 0 <= n -> 0 <= kd -> (0 < n -> kd < n) -> kd < ld -> fst pA <> bA ->
    is_hermitian_band M uplo kd pA ld n S ->
    gdriver_ensures (zpbtrf R rp nb uplo n kd pA ld bA) M (fun M' st =>
      (st = 0 /\ pos_def P n S) \/ (0 < st <= n /\ ~ pos_def P st S)).
  Proof.
    intros R rp P S nb uplo n kd pA ld bA M Hrp HR N10 Hb Hu Hn Hk Hkn HL HP HS.
    destruct (Z.eq_dec kd 0) as [K0|K0].
    2:{ eapply gdriver_mono; [|apply (zpbtrf_status R rp P S); try eassumption; lia].
        intros M' st [H|(H1 & _ & H2)]; auto. }
    eapply gdriver_mono; [|apply (zpbtrf_core R rp Hrp S); try eassumption; lia].
    intros M' st (L & CE & LZ & H0 & HN & _). destruct HS as (_ & _ & HS3).
    assert (HH : forall i j, 0 <= i < n -> 0 <= j < n -> S j i = nconj (S i j)) by (intros; apply HS3; split; assumption).
    destruct (Z.eq_dec st 0) as [E|E].
    - left. split; [assumption|]. destruct (H0 E) as [FB _]. apply (good_pd R rp P Hrp n S L CE HH n); [lia|].
      intros j Hj. apply (first_bad_zero _ 0 n FB ltac:(lia) j Hj).
    - right. destruct (HN E) as (k & Hk1 & Hk2 & ST). symmetry in ST.
      destruct (first_bad_pos _ (k * nb) (Z.min ((k + 1) * nb) n) st ltac:(nia) ST E) as (S1 & S2 & S3).
      assert (RG : 0 < st <= n) by nia. split; [assumption|]. intros PD.
      assert (PV : piv L S (st - 1) = S (st - 1) (st - 1)).
      { unfold piv. rewrite nsum_0; [ring|]. intros l Hl. rewrite LZ by lia. ring. }
      assert (RE : nconj (S (st - 1) (st - 1)) = S (st - 1) (st - 1)) by (symmetry; apply HH; lia).
      cbv beta in S2. rewrite PV in S2. rewrite Hrp in S2 by assumption. unfold badp in S2.
      apply (HR (S (st - 1) (st - 1)) RE).
      + specialize (PD (fun i => if i =? st - 1 then n1 else n0)).
        rewrite (nsum_pick _ 0 st (st - 1)) in PD; [|lia|].
        * rewrite (nsum_pick _ 0 st (st - 1)) in PD; [|lia|].
          -- rewrite Z.eqb_refl, nconj_1 in PD.
             assert (EQ : nmul n1 (nmul (S (st - 1) (st - 1)) n1) = S (st - 1) (st - 1)) by ring.
             rewrite EQ in PD. apply PD. exists (st - 1). rewrite Z.eqb_refl. split; [lia|assumption].
          -- intros i Hi Hne. apply Z.eqb_neq in Hne. rewrite Hne. ring.
        * intros i Hi Hne. apply nsum_0. intros j Hj. apply Z.eqb_neq in Hne. rewrite Hne, nconj_0. ring.
      + destruct (rt R (S (st - 1) (st - 1))); [discriminate|reflexivity].
  Qed.
End Main.
