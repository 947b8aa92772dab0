(* The last resort of plasma_zcposv: factor and solve in double precision. *)
From Coq Require Import ZArith List Bool Lia Ring.
From Verif Require Import Base NumModel NumProofs FieldModel TaskModel TaskSpec TaskProofs GuardModel GuardSpec GuardProofs
  GuardProofs2 GuardAnyProofs DescModel DescSpec MatModel MatSpec MatProofs LayoutModel RegionProofs OpProofs SimProofs
  GemmProofs DriverModel DriverSpec TriModel TriSpec PotrfModel PotrfSpec CholProofs PotrfGenProofs PosvModel PosvProofs
  EwModel EwProofs NormModel LagModel RefineTaskModel RefineTaskSpec InvDriverProofs PotrfDriverProofs GemmDriverProofs.
Import ListNotations.
Open Scope Z_scope.

Section FallBack.
  Context {N : normed}.
  Add Ring num_ring_fb : (nring N).
  Variables (R : roots N) (rp : N -> N).
  Hypothesis Hrp : forall x, nconj x = x -> rp x = x.
  Variables (nb : Z) (A X : desc) (uplo bA bB bX : Z).
  Hypotheses (HA : dn nb A) (HX : dn nb X).
  Hypotheses (AS : d_m A = d_n A) (AX : d_n A = d_m X).
  Hypotheses (Pm : 0 < d_m X) (Pn : 0 < d_n X).
  Hypothesis Hu : valid_uplo uplo.
  Hypotheses (N1 : bA <> bB) (N2 : bA <> bX) (N3 : bB <> bX).
  Let n := d_m X.
  Let Hb : 0 < nb := sq_pos nb X _ HX.
  Let Am : d_m A = n. Proof. unfold n. congruence. Qed.
  Let An : d_n A = n. Proof. unfold n. congruence. Qed.
  Let HSA : forall i j, 0 <= i < ntl nb (d_n A) -> 0 <= j < ntl nb (d_n A) -> uplo_sel uplo i j = true -> in_tiles A i j.
  Proof. rewrite An. apply (proj1 (dense_tiles nb n A uplo HA Am An)). Qed.

  (* the tile matrix as if it were a user's matrix *)
  Definition vmem (M : mem N) : mem N := fun l => el M bA A (snd l mod n) (snd l / n).

  Lemma vmem_ul : forall M i j, 0 <= i < n -> ul (vmem M) (0, 0) n i j = el M bA A i j.
  Proof.
    intros M i j Hi. unfold ul, vmem. cbn [fst snd]. replace (0 + i + j * n) with (i + j * n) by ring.
    rewrite Z.mod_add, Z.div_add, Z.mod_small, Z.div_small by lia. rewrite Z.add_0_l. reflexivity.
  Qed.

  Let two := two_solves (F := N) uplo bA A bX X.
  Let cpy := pzlacpy (N := N) PlasmaGeneral PlasmaNoTrans bB X bX X.
  Lemma fall_back_eq : fall_back R rp uplo bA A bB bX X = plist nb n A bA uplo R rp ++ map sure (cpy ++ two).
  Proof.
    unfold fall_back. rewrite (PotrfGenProofs.pzpotrf_eq nb n A bA uplo Hu (in_tiles A) HA Am An HSA R rp). reflexivity.
  Qed.

  Lemma fall_back_kgood : Forall kgood (map ck_task (fall_back R rp uplo bA A bB bX X)).
  Proof.
    rewrite fall_back_eq, map_app, map_sure. apply Forall_app. split.
    - apply (plist_kgood nb n A bA uplo Hu (in_tiles A) HA Am An HSA).
    - apply Forall_app. split; [apply (pzlacpy_kgood nb); auto|].
      apply (two_solves_kgood nb A X (in_tiles A) bA bX uplo n); auto.
  Qed.
  Lemma fall_back_sound : Forall cksound (fall_back R rp uplo bA A bB bX X).
  Proof.
    rewrite fall_back_eq. apply Forall_app. split; [apply (plist_sound nb n A bA uplo Hu (in_tiles A) HSA)|apply cksound_sure].
  Qed.
  Lemma fall_back_kdecl : forall env, In (bA, homeD A (in_tiles A)) env -> In (bB, homeD X (in_tiles X)) env ->
    In (bX, homeD X (in_tiles X)) env ->
    Forall (kdecl (home_env env)) (map ck_task (fall_back R rp uplo bA A bB bX X)).
  Proof.
    intros env E1 E2 E3. rewrite fall_back_eq, map_app, map_sure. apply Forall_app. split.
    - apply (plist_kdecl nb n A bA uplo Hu (in_tiles A) HA Am An HSA). assumption.
    - apply Forall_app. split.
      + apply (pzlacpy_kdecl nb); auto.
      + apply (two_solves_kdecl nb A X (in_tiles A) bA bX uplo n); auto.
  Qed.
  Lemma fall_back_writes : forall k l, In k (fall_back R rp uplo bA A bB bX X) -> k_writes (ck_task k) l -> In (fst l) [bA; bB; bX].
  Proof.
    intros k l Hk W.
    pose proof (fall_back_kdecl [(bA, homeD A (in_tiles A)); (bB, homeD X (in_tiles X)); (bX, homeD X (in_tiles X))]
      ltac:(cbn; auto) ltac:(cbn; auto) ltac:(cbn; auto)) as KD.
    rewrite Forall_forall in KD. destruct (KD (ck_task k) (in_map ck_task _ _ Hk)) as [_ W'].
    destruct (W' l W) as (d & _ & (E1 & h & I & _) & _). cbn in I. cbn.
    destruct I as [I|[I|[I|[]]]]; injection I as I _; rewrite I; tauto.
  Qed.

  Lemma fall_back_result : forall (S : Z -> Z -> N) (M : mem N),
    (forall i j, in_matrix n n i j -> selects uplo i j -> S i j = el M bA A i j) ->
    (forall i j, in_matrix n n i j -> S i j = nconj (S j i)) ->
    Forall (fun c => c = 0) (kcodes (fall_back R rp uplo bA A bB bX X) M) ->
    forall i j, in_matrix n (d_n X) i j ->
      nsum (fun l => nmul (S i l) (el (krun (map ck_task (fall_back R rp uplo bA A bB bX X)) M) bX X l j)) 0 n = el M bB X i j.
  Proof.
    intros S M HS HH CZ. rewrite fall_back_eq in CZ |- *.
    rewrite kcodes_app in CZ. apply Forall_app in CZ. destruct CZ as [CZ _].
    rewrite map_app, map_sure, !krun_app.
    remember (fun i j => VV A bA uplo M i j) as SV eqn:ESV.
    assert (SE : forall i j, 0 <= j <= i -> i < n -> SV i j = S i j).
    { intros i j Hj Hi. rewrite ESV. unfold VV, low. destruct Hu as [E|E]; rewrite E.
      - cbn. rewrite (HH i j) by (split; lia). apply f_equal. symmetry.
        apply HS; [split; lia|]. left. split; [assumption|lia].
      - cbn. symmetry. apply HS; [split; lia|]. right. split; [assumption|lia]. }
    remember (fst (potf2 R rp n SV)) as L eqn:EL.
    assert (CE : chol_eqs R rp n SV L).
    { destruct (potf2_inv R rp SV n ltac:(unfold n; lia)) as (_ & I2 & _). rewrite EL. destruct (I2 n); [assumption|unfold n; lia]. }
    assert (CS : chol_eqs R rp n S L) by (eapply chol_eqs_ext; eauto).
    assert (PV : forall j, 0 <= j < n -> piv L SV j = piv L S j).
    { intros j Hj. unfold piv. rewrite SE by lia. reflexivity. }
    assert (FB : first_bad (fun j => badp R (rp (piv L SV j))) 0 n = first_bad (fun j => badp R (rp (piv L S j))) 0 n).
    { apply first_bad_ext. intros j Hj. rewrite PV by assumption. reflexivity. }
    assert (HSr : forall j, 0 <= j < n -> nconj (SV j j) = SV j j).
    { intros j Hj. rewrite SE by lia. symmetry. apply HH. split; lia. }
    assert (RL : rel nb n A bA uplo M SV M) by (split; [reflexivity|intros; rewrite ESV; reflexivity]).
    destruct (plist_step nb n A bA uplo Hu (in_tiles A) HA Am An HSA M R rp Hrp SV L CE HSr M RL) as [[R1 R2] R3].
    assert (BAD0 : first_bad (fun j => badp R (rp (piv L S j))) 0 n = 0).
    { rewrite <- FB, <- R3. clear -CZ. induction (kcodes (plist nb n A bA uplo R rp) M) as [|c cs IH]; [reflexivity|].
      inversion CZ; subst. cbn. apply IH. assumption. }
    remember (krun (map ck_task (plist nb n A bA uplo R rp)) M) as M4 eqn:EM4. clear EM4 R3 CZ.
    assert (HSv : is_hermitian (vmem M) uplo (0,0) n n S).
    { split.
      - intros i j [Hi Hj] Hs. rewrite vmem_ul by assumption. apply HS; [split; assumption|assumption].
      - intros i j [Hi Hj]. apply HH. split; assumption. }
    assert (HL : forall i j, in_matrix n n i j -> j <= i ->
      (if uplo =? PlasmaLower then ul (vmem M4) (0,0) n i j else nconj (ul (vmem M4) (0,0) n j i)) = L i j).
    { intros i j [Hi Hj] Hji. rewrite !vmem_ul by lia. change (VV A bA uplo M4 i j = L i j). rewrite R2.
      - replace (i <? j) with false by (symmetry; apply Z.ltb_ge; lia). reflexivity.
      - split; [assumption|]. split; [assumption|]. apply Z.div_le_mono; lia. }
    destruct (factor_matrix R rp Hrp S uplo n (0,0) n (vmem M) (vmem M4) L Hu ltac:(unfold n; lia) HSv CS BAD0 HL)
      as (T & T1 & T2 & T3).
    assert (TNZ : forall i, 0 <= i < n -> T i i <> n0).
    { intros i Hi. destruct (T2 i Hi) as [d Hd]. apply (rt_nz N R d (T i i) Hd). }
    pose proof (fun i j => pzlacpy_at (N := N) nb X X bB bX PlasmaGeneral PlasmaNoTrans HX HX N3 (or_introl eq_refl) eq_refl eq_refl M4 i j) as L1.
    pose proof (fun l => pzlacpy_frame (N := N) X X bB bX PlasmaGeneral PlasmaNoTrans (or_introl eq_refl) M4 l) as L2.
    fold cpy in L1, L2. remember (krun cpy M4) as M5 eqn:EM5. clear EM5.
    destruct (two_solves_at nb A X (in_tiles A) bA bX uplo n HA HX Hu Am An eq_refl HSA N2 (vmem M4) (0,0) n T T1 TNZ Pn M5) as [_ V].
    * intros i j Hi Hj Hs. rewrite vmem_ul by assumption. apply el_ext. intros l E. apply L2. congruence.
    * fold two in V. intros i j [Hi Hj].
      transitivity (el M5 bX X i j).
      -- rewrite <- V by assumption. apply nsum_ext. intros l Hl. rewrite T3 by (split; assumption).
         reflexivity.
      -- destruct (L1 i j Hi Hj) as [_ L1']. rewrite L1'. cbn [cpsel op_el]. unfold op_el. cbn.
         apply el_ext. intros l E. apply R1. congruence.
  Qed.
End FallBack.
