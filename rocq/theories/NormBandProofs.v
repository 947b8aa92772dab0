(* plasma_zlangb with an array of kl + ku + 1 rows. *)
From Coq Require Import ZArith List Bool Lia Ring.
From Verif Require Import Base NumModel NumProofs FieldModel TaskModel TaskSpec TaskProofs DescModel DescSpec
  DescDriverModel MatModel MatSpec MatProofs RegionProofs LayoutModel BandModel BandSpec BandProofs NormModel NormTriModel NormSpec
  FillProofs NormFacts NormProofs NormDriverProofs NormTrDriverProofs NormBandModel NormBandSpec.
Import ListNotations.
Open Scope Z_scope.

(* two tasks, the second of which reads what the first declares as output *)
Lemma pair_region : forall V (a b : ktask V) M (Q : mem V -> Prop), kgood a -> kgood b ->
  deps_order (k_deps a) (k_deps b) ->
  (forall M', (forall l, M' l = k_fun b (k_fun a M) l) -> Q M') -> region_ensures [a; b] M Q.
Proof.
  intros V a b M Q GA GB D HQ. apply region_intro.
  - constructor; [assumption|]. constructor; [assumption|constructor].
  - apply korders_klinked. constructor; [intros k' [<-|[]] _; assumption|]. constructor; [intros k' []|constructor].
  - intros M' HM. apply HQ. exact HM.
Qed.

(* order 2, tiles of order 2, one subdiagonal: the descriptor *)
Definition A2 : desc := match gb_create 2 2 2 1 0 with CrOk A _ => A | CrError _ => mkdesc 0 0 0 0 0 0 0 0 0 0 0 0 0 0 0 0 0 0 0 0 0 0 end.
Lemma gb2 : gb_create 2 2 2 1 0 = CrOk A2 12.
Proof. reflexivity. Qed.

Section Witness.
  Context {N : normed}.
  Add Ring num_ring_lb : (nring N).

  Definition M2 (l : loc) : N := if (fst l =? 0) && (snd l =? 0) then n1 else n0.

  Lemma lb_tiles2 : lb_tiles A2 = [(0, 0)].
  Proof. reflexivity. Qed.
  Lemma lb_copy : @pzpb2desc N (0, 0) 2 1 A2 = [omp_lapack2tile PlasmaGeneral 0 0 2 2 2 1 0 (0, 1) 1 (1, tile_addr A2 0 0) 2].
  Proof. reflexivity. Qed.
  Lemma lb_copy_kgood : kgood (@omp_lapack2tile N PlasmaGeneral 0 0 2 2 2 1 0 (0, 1) 1 (1, tile_addr A2 0 0) 2).
  Proof.
    apply l2t_kgood; [cbn; lia| |lia]. unfold tile_cut, bj_start, bj_end, bi_start, bi_end. cbn. repeat split; intros; lia.
  Qed.

  Definition lb_t : ktask N := omp_lapack2tile PlasmaGeneral 0 0 2 2 2 1 0 (0, 1) 1 (1, tile_addr A2 0 0) 2.
  Lemma copy_zero : forall M : mem N, (forall o, 0 < o -> M (0, o) = n0) -> forall i j, 0 <= i < 2 -> 0 <= j < 2 ->
    rd (k_fun lb_t M) (1, tile_addr A2 0 0) 2 i j = n0.
  Proof.
    intros M HM i j Hi Hj. unfold lb_t. cbn [k_fun omp_lapack2tile]. unfold rd.
    rewrite l2t_mset; [|cbn; lia| |lia].
    - rewrite mset_in by lia. cbn. unfold l2t_val. destruct inb; [|reflexivity]. unfold rd, at_. cbn [fst snd]. apply HM. lia.
    - unfold tile_cut, bj_start, bj_end, bi_start, bi_end. cbn. repeat split; intros; lia.
  Qed.
  Lemma copy_else : forall (M : mem N) l, fst l <> 1 -> k_fun lb_t M l = M l.
  Proof.
    intros M l Hl. unfold lb_t. cbn [k_fun omp_lapack2tile]. rewrite l2t_mset; [|cbn; lia| |lia].
    - apply mset_out. intros R. apply reg_block in R. cbn in R. congruence.
    - unfold tile_cut, bj_start, bj_end, bi_start, bi_end. cbn. repeat split; intros; lia.
  Qed.

  Lemma max00 : nmax n0 (nabs n0) = @n0 N.
  Proof. rewrite nabs_0. unfold nmax. destruct nltb; reflexivity. Qed.
  Lemma add00 : nadd n0 (nabs n0) = @n0 N.
  Proof. rewrite nabs_0. ring. Qed.

  Definition zero_on (m n : Z) (f : Z -> Z -> N) : Prop := agree m n f (fun _ _ => n0).
  Lemma lange_max_zero : forall m n f, (m = 1 \/ m = 2) -> (n = 1 \/ n = 2) -> zero_on m n f -> lange_max m n f = n0.
  Proof.
    intros m n f Em En H. rewrite (lange_max_ext m n f _ H).
    destruct Em as [->| ->]; destruct En as [->| ->]; unfold lange_max;
      change (zrange 0 1) with [0]; change (zrange 0 2) with [0; 1]; cbn [fold_left]; rewrite !max00; reflexivity.
  Qed.
  Lemma lange_inf_zero : forall m n f, m = 2 -> (n = 1 \/ n = 2) -> zero_on m n f -> lange_inf m n f = n0.
  Proof.
    intros m n f -> En H. rewrite (lange_inf_ext 2 n f _ H).
    assert (E : forall i, lange_row n (fun _ _ => n0) i = @n0 N).
    { intros i. unfold lange_row. destruct En as [->| ->]; change (zrange 0 1) with [0]; change (zrange 0 2) with [0; 1];
        cbn [fold_left]; rewrite !add00; reflexivity. }
    unfold lange_inf. change (zrange 0 2) with [0; 1]. cbn [fold_left]. rewrite !E.
    unfold nmax. destruct (nltb n0 n0); destruct (nltb _ _); reflexivity.
  Qed.

  Lemma not_norm : forall nsqrt norm, @n1 N <> n0 ->
    norm = PlasmaMaxNorm \/ norm = PlasmaOneNorm \/ norm = PlasmaInfNorm ->
    ~ is_norm nsqrt norm 2 2 (gb_el M2 1 0 (0, 0) 2) (@n0 N).
  Proof.
    intros nsqrt norm H1 HV H.
    assert (X : nle (@n1 N) n0 -> False).
    { intros L. apply nle_0_eq in L; [apply H1; exact L|apply isabs_1]. }
    assert (E0 : gb_el M2 1 0 (0, 0) 2 0 0 = @n1 N) by reflexivity.
    assert (E1 : gb_el M2 1 0 (0, 0) 2 1 0 = @n0 N) by reflexivity.
    assert (E2 : gb_el M2 1 0 (0, 0) 2 0 1 = @n0 N) by reflexivity.
    destruct H as [[E [L _]]|[[E [L _]]|[[E [L _]]|[E _]]]].
    - specialize (L (0, 0)). cbn [fst snd] in L. rewrite E0, nabs_1 in L. apply X, L. split; cbn [fst snd]; lia.
    - specialize (L 0 ltac:(lia)). cbv beta in L. unfold nsum in L. change (zrange 0 2) with [0; 1] in L.
      cbn [fold_right] in L. rewrite E0, E1, nabs_0, nabs_1 in L. apply X. unfold nle.
      rewrite <- L. f_equal. ring.
    - specialize (L 0 ltac:(lia)). cbv beta in L. unfold nsum in L. change (zrange 0 2) with [0; 1] in L.
      cbn [fold_right] in L. rewrite E0, E2, nabs_0, nabs_1 in L. apply X. unfold nle.
      rewrite <- L. f_equal. ring.
    - rewrite E in HV. destruct HV as [V|[V|V]]; discriminate V.
  Qed.

  Lemma M2_zero : forall o, 0 < o -> @M2 (0, o) = n0.
  Proof. intros o Ho. unfold M2. cbn [fst snd]. destruct (Z.eqb_spec o 0); [lia|]. reflexivity. Qed.

  Lemma zlangb_zero : forall lassq nsqrt norm,
    norm = PlasmaMaxNorm \/ norm = PlasmaOneNorm \/ norm = PlasmaInfNorm ->
    valued_ensures (zlangb lassq nsqrt 2 norm 2 2 1 0 (0, 0) 2 1 2 (3, 0)) M2 (fun v _ => v = @n0 N).
  Proof.
    intros lassq nsqrt norm HV.
    assert (DO : forall x : loc, deps_order [dep_in (0, 1); dep_out (1, tile_addr A2 0 0)] [dep_in (1, tile_addr A2 0 0); dep_out x]).
    { intros x. eexists _, _. split; [right; left; reflexivity|]. split; [left; reflexivity|]. split; [reflexivity|]. cbn. intuition discriminate. }
    destruct HV as [->|[->| ->]]; unfold zlangb; cbn -[gb_create lb_tiles pzpb2desc Z.add tile_addr fill];
      rewrite gb2; cbn [with_vdesc]; unfold pzlangb, lb_ldwork, zlangb_work;
      cbn -[lb_tiles pzpb2desc tile_addr fill calloc_work phases_ensures]; rewrite ?lb_copy, ?lb_tiles2;
      cbn [valued_ensures phases_ensures app map combine length Z.of_nat zrange fst snd].
    - apply (pair_region N); [apply lb_copy_kgood|apply zlange_max_kgood|apply DO|]. intros M1 E1.
      apply single_region; [apply zlange_max_kgood|]. intros M' E. rewrite E. cbn [k_fun omp_zlange_max].
      change (lange_max 1 1 (rd M1 (2, 0) 1) = n0). apply lange_max_zero; [auto..|].
      intros i j Hi Hj. assert (i = 0) as -> by lia. assert (j = 0) as -> by lia. unfold rd, at_. cbn [fst snd].
      change (M1 (2, 0) = n0). rewrite E1.
      change (lange_max 2 2 (rd (k_fun lb_t M2) (1, tile_addr A2 0 0) 2) = n0). apply lange_max_zero; [auto..|].
      intros i j Hi' Hj'. apply copy_zero; [apply M2_zero|assumption..].
    - apply single_region; [apply calloc_kgood|]. intros M0 E0.
      assert (Z0 : forall o, 0 < o -> M0 (0, o) = n0).
      { intros o Ho. rewrite E0. cbn [k_fun calloc_work]. rewrite fill_out; [apply M2_zero, Ho|]. intros (r & _ & X). discriminate X. }
      assert (W0 : forall o, 0 <= o < 6 -> M0 (2, o) = n0).
      { intros o Ho. rewrite E0. cbn [k_fun calloc_work]. apply (fill_in N (2, 0) _ _ _ o).
        split; [lia|]. eapply Z.lt_le_trans; [apply Ho|]. vm_compute. discriminate. }
      apply (pair_region N); [apply lb_copy_kgood|apply zlange_aux_one_kgood; vm_compute; reflexivity|apply DO|]. intros M1 E1.
      apply single_region; [apply dlange_inf_kgood|]. intros M' E. rewrite E.
      change (lange_inf 2 2 (rd M1 (2, 0) 2) = n0). apply lange_inf_zero; [auto..|].
      intros i j Hi Hj. unfold rd, at_. cbn [fst snd]. rewrite E1.
      change (fill (2, 0) 2 (aux_one 2 (rd (k_fun lb_t M0) (1, tile_addr A2 0 0) 2)) (k_fun lb_t M0) (2, 0 + i + j * 2) = n0). replace (0 + i + j * 2) with (0 + (i + 2 * j)) by lia.
      assert (Ej : j = 0 \/ j = 1) by lia. destruct Ej as [->| ->].
      + replace (i + 2 * 0) with i by lia. rewrite (fill_in N (2, 0)) by lia.
        rewrite (aux_one_ext 2 2 _ (fun _ _ => n0)); [|lia| |lia].
        * unfold aux_one. change (zrange 1 2) with [1]. cbn [fold_left]. rewrite nabs_0. ring.
        * intros r c Hr Hc. apply copy_zero; assumption.
      + rewrite fill_out; [|intros (r & Hr & X); apply (f_equal snd) in X; cbn [fst snd] in X; lia].
        rewrite copy_else by (cbn; lia). apply W0. lia.
    - apply single_region; [apply calloc_kgood|]. intros M0 E0.
      assert (Z0 : forall o, 0 < o -> M0 (0, o) = n0).
      { intros o Ho. rewrite E0. cbn [k_fun calloc_work]. rewrite fill_out; [apply M2_zero, Ho|]. intros (r & _ & X). discriminate X. }
      apply (pair_region N); [apply lb_copy_kgood|apply zlange_aux_inf_kgood|apply DO|]. intros M1 E1.
      apply single_region; [apply dlange_inf_kgood|]. intros M' E. rewrite E.
      change (lange_inf 2 1 (rd M1 (2, 0) 2) = n0). apply lange_inf_zero; [auto..|].
      intros i j Hi Hj. assert (j = 0) as -> by lia. unfold rd, at_. cbn [fst snd]. rewrite E1.
      change (fill (2, 0) 2 (aux_inf 2 (rd (k_fun lb_t M0) (1, tile_addr A2 0 0) 2)) (k_fun lb_t M0) (2, 0 + i + 0 * 2) = n0). replace (0 + i + 0 * 2) with (0 + (i + 2 * 0)) by lia.
      replace (i + 2 * 0) with i by lia. rewrite (fill_in N (2, 0)) by lia.
      unfold aux_inf. change (zrange 0 2) with [0; 1]. cbn [fold_left].
      rewrite !copy_zero by (assumption || lia). rewrite !add00. reflexivity.
  Qed.
End Witness.

Lemma zlangb_storage : exists nb m n kl ku ldab,
  0 < nb /\ 0 <= kl < m /\ 0 <= ku < n /\ Z.max 1 (1 + kl + ku) <= ldab /\
  forall (N : normed) lassq nsqrt norm, @n1 N <> n0 ->
    norm = PlasmaMaxNorm \/ norm = PlasmaOneNorm \/ norm = PlasmaInfNorm ->
    exists M : mem N, valued_ensures (zlangb lassq nsqrt nb norm m n kl ku (0, 0) ldab 1 2 (3, 0)) M
      (fun v _ => ~ is_norm nsqrt norm m n (gb_el M kl ku (0, 0) ldab) v).
Proof.
  exists 2, 2, 2, 1, 0, 2. split; [lia|]. split; [lia|]. split; [lia|]. split; [lia|].
  intros N lassq nsqrt norm H1 HV. exists M2. pose proof (zlangb_zero lassq nsqrt norm HV) as H.
  pose proof (not_norm nsqrt norm H1 HV) as HN.
  eapply valued_mono; [|exact H]. intros v M' ->. exact HN.
Qed.

Lemma zlangb_wide_band : exists nb norm m n kl ku ldab,
  0 < nb /\ valid_norm norm /\ 0 < m /\ 0 < n /\ 0 <= kl /\ 0 <= ku /\ Z.max m (1 + kl + ku) <= ldab /\
  forall (N : normed) lassq nsqrt pAB bA bW value,
    @zlangb N lassq nsqrt nb norm m n kl ku pAB ldab bA bW value = VReturns PlasmaErrorIllegalValue.
Proof.
  exists 2, PlasmaMaxNorm, 1, 1, 1, 0, 2. split; [lia|]. split; [left; reflexivity|]. repeat (split; [lia|]). intros. reflexivity.
Qed.
