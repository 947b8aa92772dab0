(* The loop of plasma_zcposv. *)
From Coq Require Import ZArith List Bool Lia Ring.
From Verif Require Import Base NumModel NumProofs FieldModel TaskModel TaskSpec TaskProofs GuardModel GuardSpec GuardProofs
  GuardProofs2 GuardAnyProofs GAnyProofs DescModel DescSpec MatModel MatSpec MatProofs LayoutModel RegionProofs OpProofs SimProofs
  GemmProofs GemmDriverProofs OperandProofs DriverModel DriverSpec TriModel PotrfModel PosvModel SymmModel EwModel EwProofs
  NormModel NormSpec NormProofs NormTriModel LagModel LagProofs PotrfDriverProofs SwpModel
  RefineTaskModel RefineTaskSpec RefineTaskProofs RefineTaskProofs2 RefineTaskProofs3.
Import ListNotations.
Open Scope Z_scope.

(* tasks of the single precision routines *)
Section Single.
  Context {V : Type}.
  Variables (bS : Z) (A : desc) (bXs : Z) (X : desc).

  Lemma in_tile_home : forall b D l a env, In (b, homeD D (in_tiles D)) env -> in_tile_at b D l a -> home_env env l a.
  Proof.
    intros b D l a env I (m & n & Hm & Hn & -> & (r & c & Hr & Hc & _ & ->)). split; [reflexivity|].
    exists (homeD D (in_tiles D)). split; [exact I|]. exists m, n, r, c. cbn [tptr at_ fst snd].
    repeat split; try lia.
  Qed.
  Lemma in_tile_block : forall b D l a, in_tile_at b D l a -> fst l = b.
  Proof. intros b D l a (m & n & _ & _ & -> & (r & c & _ & _ & _ & ->)). reflexivity. Qed.

  Lemma single_kgood : forall b D (ks : list (cktask V)), Forall (single_task bS A bXs X b D) ks ->
    Forall kgood (map ck_task ks).
  Proof.
    intros b D ks H. apply Forall_map. eapply Forall_impl; [|exact H]. intros k [H1 H2 (L & L' & F1 & F2) H4 H5 H6].
    constructor; [|exists L; exact F1|exists L'; exact F2]. split; [exact H4|].
    intros M M' l E. destruct (H5 M M' E) as [_ Q]. apply Q.
  Qed.
  Lemma single_cksound : forall b D (ks : list (cktask V)), Forall (single_task bS A bXs X b D) ks -> Forall cksound ks.
  Proof.
    intros b D ks H. eapply Forall_impl; [|exact H]. intros k [H1 H2 _ H4 H5 H6]. split; [|exact H6].
    intros M M' E. apply (H5 M M' E).
  Qed.
  Lemma single_kdecl : forall b D (ks : list (cktask V)) env, Forall (single_task bS A bXs X b D) ks ->
    In (bS, homeD A (in_tiles A)) env -> In (bXs, homeD X (in_tiles X)) env -> In (b, homeD D (in_tiles D)) env ->
    Forall (kdecl (home_env env)) (map ck_task ks).
  Proof.
    intros b D ks env H E1 E2 E3. apply Forall_map. eapply Forall_impl; [|exact H]. intros k [H1 H2 _ _ _ _]. split.
    - intros l Hl _. destruct (H1 l Hl) as (d & I & [T|T]); exists d; (split; [exact I|]);
        [exact (in_tile_home bS A l _ env E1 T)|exact (in_tile_home bXs X l _ env E2 T)].
    - intros l Hl. destruct (H2 l Hl) as (d & I & T & NI). exists d. split; [exact I|]. split; [|exact NI].
      exact (in_tile_home b D l _ env E3 T).
  Qed.
  Lemma single_frame : forall b D (ks : list (cktask V)) M l, Forall (single_task bS A bXs X b D) ks -> fst l <> b ->
    krun (map ck_task ks) M l = M l.
  Proof.
    intros b D ks M l H Hl. apply krun_frame.
    - eapply Forall_impl; [|apply (single_kgood b D ks H)]. intros k Hk. apply (kg_sound _ Hk).
    - intros (k & Hk & W). apply in_map_iff in Hk. destruct Hk as (c & <- & Hc).
      rewrite Forall_forall in H. destruct (si_writes _ _ _ _ _ _ _ (H c Hc) l W) as (d & _ & T & _).
      apply Hl. apply (in_tile_block _ _ _ _ T).
  Qed.
End Single.

Lemma idle_rafter : forall V (p : rprog V) out M, idle_iter (rafter p out) M = idle_iter p M.
Proof. intros V p out. induction p as [iter ks|ph next IH]; intros M; cbn; [reflexivity|apply IH]. Qed.

Section Loop.
  Context {N : normed}.
  Add Ring num_ring_lp : (nring N).
  Variables (narrow widen : N -> N) (fits : N -> bool) (R : roots N) (rp : N -> N).
  Hypothesis Hrp : forall x, nconj x = x -> rp x = x.
  Variables (nb : Z) (A X : desc) (uplo bA bB bX bR w bN bS bXs : Z) (pX : loc) (ldx : Z).
  Hypotheses (HA : dn nb A) (HX : dn nb X).
  Hypotheses (AS : d_m A = d_n A) (AX : d_n A = d_m X).
  Hypotheses (Pm : 0 < d_m X) (Pn : 0 < d_n X).
  Hypothesis Hu : valid_uplo uplo.
  Hypothesis ND : NoDup [bA; bB; bX; bR; w; bN; bS; bXs].
  Hypothesis FX : ~ In (fst pX) [bA; bB; bX; bR; w; bN; bS; bXs].
  Hypothesis LX : d_m X <= ldx.
  Variable solve_s : list (cktask N).
  Hypothesis HSo : Forall (single_task bS A bXs X bXs X) solve_s.
  Let n := d_m X.
  Let nrhs := d_n X.

  Lemma diff : forall x y : Z, forall l, NoDup l -> forall i j, i <> j -> nth_error l i = Some x -> nth_error l j = Some y -> x <> y.
  Proof.
    intros x y l H i j NE E1 E2 E. apply NE. apply (proj1 (NoDup_nth_error l) H).
    - apply nth_error_Some. congruence.
    - congruence.
  Qed.
  Ltac nd i j := exact (diff _ _ _ ND i j ltac:(discriminate) eq_refl eq_refl).

  Let ND6 : NoDup [bA; bB; bX; bR; w; bN].
  Proof. apply (NoDup_remove_1 [bA; bB; bX; bR; w; bN] [] bS). apply (NoDup_remove_1 [bA; bB; bX; bR; w; bN; bS] [] bXs). exact ND. Qed.

  Let out := map (@sure N) (pzdesc2ge bX X pX ldx).

  (* the last tasks of the region *)
  Lemma out_region : forall (comp : list (cktask N)) (M : mem N) (Q : mem N -> Z -> Prop),
    Forall kgood (map ck_task comp) -> Forall cksound comp ->
    (forall env, In (bA, homeD A (in_tiles A)) env -> In (bB, homeD X (in_tiles X)) env -> In (bX, homeD X (in_tiles X)) env ->
       Forall (kdecl (home_env env)) (map ck_task comp)) ->
    (forall k l, In k comp -> k_writes (ck_task k) l -> In (fst l) [bA; bB; bX]) ->
    (forall M' st,
       (st = 0 -> Forall (fun c => c = 0) (kcodes comp M) /\
          forall i j, 0 <= i < n -> 0 <= j < nrhs -> ul M' pX ldx i j = el (krun (map ck_task comp) M) bX X i j) ->
       (forall l, ~ In (fst l) [bA; bB; bX] -> ~ in_user pX ldx n nrhs l -> M' l = M l) -> Q M' st) ->
    gregion_ensures (comp ++ out) M Q.
  Proof.
    intros comp M Q CG CS CD CW HQ.
    pose (oA := ge_opnd bA A pX ldx). pose (oB := ge_opnd bB X pX ldx). pose (oX := ge_opnd bX X pX ldx).
    pose proof (gops_region_any (V := N) nb [oA; oB; oX] [] [oX]) as G. cbn [flat_map map] in G. rewrite app_nil_r in G.
    assert (EO : o_out oX = pzdesc2ge (V := N) bX X pX ldx) by apply ge_opnd_out. rewrite EO in G. fold out in G. cbn [app] in G.
    assert (N1 : bA <> bB) by nd 0%nat 1%nat. assert (N2 : bA <> bX) by nd 0%nat 2%nat. assert (N3 : bB <> bX) by nd 1%nat 2%nat.
    eapply gregion_mono; [|apply G with (comp := comp) (M := M)]; clear G; auto.
    - intros M' st (M3 & _ & H2 & _ & H4 & H5). apply HQ.
      + intros E0. destruct (H4 E0) as (K1 & K2 & _).
        assert (ME : meq M3 M) by (intros l; apply H2; intros o []).
        split.
        * clear -K1 ME CG CS. revert K1. replace (kcodes comp M) with (kcodes comp M3); [auto|].
          revert M M3 ME. induction comp as [|k comp IH]; intros M M3 ME; cbn; [reflexivity|].
          inversion_clear CG as [|? ? G1 G2]. inversion_clear CS as [|? ? S1 S2]. destruct S1 as [S1 _]. f_equal.
          -- apply S1. intros l _. apply ME.
          -- apply IH; auto. intros l. destruct (kg_sound _ G1) as [Q1 Q2].
             destruct (finite_dec _ l (kg_writes _ G1)) as [W|W].
             ++ apply Q2; auto.
             ++ rewrite !Q1 by assumption. apply ME.
        * intros i j Hi Hj. pose proof (K2 oX i j ltac:(cbn; auto) (ge_opnd_el nb bX X pX ldx i j HX Hi Hj)) as K3. cbn in K3.
          rewrite K3. apply el_ext. intros l _. apply krun_meq; assumption.
      + intros l Hl HU. apply H5; [exact Hl|]. intros o [<-|[]] HO. apply HU. exact (ge_opnd_user _ _ _ _ _ HO).
    - intros o [<-|[<-|[<-|[]]]]; apply ge_opnd_ok; auto. unfold n. lia.
    - intros o [].
    - intros o [<-|[]]. cbn. auto.
    - cbn. repeat constructor; cbn; intuition.
    - intros o o' [<-|[<-|[<-|[]]]] [<-|[<-|[<-|[]]]]; cbn; intros E; apply FX; cbn; auto.
    - constructor.
    - repeat constructor. intros [].
    - intros o o' [<-|[]] [<-|[]]. auto.
    - intros o [].
    - intros env HE. apply CD; [apply (HE oA)|apply (HE oB)|apply (HE oX)]; cbn; auto.
  Qed.

  (* the tasks of one pass of the loop before the residual *)
  Definition pre : list (cktask N) :=
    pzlag2c narrow fits bR X bXs X ++ solve_s ++ map sure (pclag2z widen bXs X bR X)
    ++ map sure (pzgeadd PlasmaNoTrans n1 bR X n1 bX X).
  Definition env : list (Z * (Z -> Z -> Prop)) :=
    [(bA, homeD A (in_tiles A)); (bB, homeD X (in_tiles X)); (bX, homeD X (in_tiles X)); (bR, homeD X (in_tiles X));
     (bS, homeD A (in_tiles A)); (bXs, homeD X (in_tiles X)); (w, whome X 0)].

  Lemma pre_kgood : Forall kgood (map ck_task pre).
  Proof.
    unfold pre. rewrite !map_app, !map_sure. rewrite !Forall_app. split; [|split; [|split]].
    - apply (pzlag2c_kgood narrow fits nb); assumption.
    - exact (single_kgood _ _ _ _ _ _ _ HSo).
    - apply (pclag2z_kgood widen nb); assumption.
    - apply (pzgeadd_kgood nb); auto. left. reflexivity.
  Qed.
  Lemma pre_sound : Forall cksound pre.
  Proof.
    unfold pre. rewrite !Forall_app. split; [|split; [|split]].
    - apply pzlag2c_cksound.
    - exact (single_cksound _ _ _ _ _ _ _ HSo).
    - apply cksound_sure.
    - apply cksound_sure.
  Qed.
  Lemma pre_kdecl : Forall (kdecl (home_env env)) (map ck_task pre).
  Proof.
    unfold pre. rewrite !map_app, !map_sure. rewrite !Forall_app. split; [|split; [|split]].
    - apply pzlag2c_kdecl; cbn; tauto.
    - apply (single_kdecl bS A bXs X bXs X); [exact HSo| | |]; cbn; tauto.
    - apply pclag2z_kdecl; cbn; tauto.
    - apply (pzgeadd_kdecl nb); auto; cbn; tauto.
  Qed.
  Lemma pre_frame : forall (M : mem N) l, fst l <> bXs -> fst l <> bR -> fst l <> bX -> krun (map ck_task pre) M l = M l.
  Proof.
    intros M l L1 L2 L3. unfold pre. rewrite !map_app, !map_sure, !krun_app.
    rewrite pzgeadd_frame by assumption. rewrite pclag2z_frame by assumption.
    rewrite (single_frame bS A bXs X bXs X) by assumption. apply pzlag2c_frame. assumption.
  Qed.
  Lemma env_functional : functional (home_env env).
  Proof.
    assert (K : NoDup [bA; bB; bX; bR; bS; bXs; w]).
    { assert (NA : forall i j x y, i <> j -> nth_error [bA; bB; bX; bR; w; bN; bS; bXs] i = Some x ->
        nth_error [bA; bB; bX; bR; w; bN; bS; bXs] j = Some y -> x <> y) by (intros i j x y NE E1 E2; exact (diff x y _ ND i j NE E1 E2)).
      pose proof (fun i j => NA i j) as NA'. clear -NA.
      repeat constructor; cbn [In]; intros H;
        repeat match goal with H : _ \/ _ |- _ => destruct H as [H|H] end; try contradiction; revert H;
        match goal with
        | |- ?a = ?b -> False =>
          first [ exact (NA 1%nat 0%nat a b ltac:(discriminate) eq_refl eq_refl) | exact (NA 2%nat 0%nat a b ltac:(discriminate) eq_refl eq_refl)
                | exact (NA 3%nat 0%nat a b ltac:(discriminate) eq_refl eq_refl) | exact (NA 6%nat 0%nat a b ltac:(discriminate) eq_refl eq_refl)
                | exact (NA 7%nat 0%nat a b ltac:(discriminate) eq_refl eq_refl) | exact (NA 4%nat 0%nat a b ltac:(discriminate) eq_refl eq_refl)
                | exact (NA 2%nat 1%nat a b ltac:(discriminate) eq_refl eq_refl) | exact (NA 3%nat 1%nat a b ltac:(discriminate) eq_refl eq_refl)
                | exact (NA 6%nat 1%nat a b ltac:(discriminate) eq_refl eq_refl) | exact (NA 7%nat 1%nat a b ltac:(discriminate) eq_refl eq_refl)
                | exact (NA 4%nat 1%nat a b ltac:(discriminate) eq_refl eq_refl) | exact (NA 3%nat 2%nat a b ltac:(discriminate) eq_refl eq_refl)
                | exact (NA 6%nat 2%nat a b ltac:(discriminate) eq_refl eq_refl) | exact (NA 7%nat 2%nat a b ltac:(discriminate) eq_refl eq_refl)
                | exact (NA 4%nat 2%nat a b ltac:(discriminate) eq_refl eq_refl) | exact (NA 6%nat 3%nat a b ltac:(discriminate) eq_refl eq_refl)
                | exact (NA 7%nat 3%nat a b ltac:(discriminate) eq_refl eq_refl) | exact (NA 4%nat 3%nat a b ltac:(discriminate) eq_refl eq_refl)
                | exact (NA 7%nat 6%nat a b ltac:(discriminate) eq_refl eq_refl) | exact (NA 4%nat 6%nat a b ltac:(discriminate) eq_refl eq_refl)
                | exact (NA 4%nat 7%nat a b ltac:(discriminate) eq_refl eq_refl) ]
        end. }
    apply home_env_functional; [exact K|].
    intros b h [E|[E|[E|[E|[E|[E|[E|[]]]]]]]]; injection E as <- <-; try (apply homeD_functional);
      try (apply (sq_t nb A _ HA)); try (apply (sq_t nb X _ HX)). apply (whome_functional nb). assumption.
  Qed.

  Lemma accepted_ext : forall (S B B' Y Y' : Z -> Z -> N) cte,
    (forall i j, 0 <= i < n -> 0 <= j < nrhs -> Y i j = Y' i j) ->
    (forall i j, 0 <= i < n -> 0 <= j < nrhs -> B i j = B' i j) ->
    accepted n nrhs S B Y cte -> accepted n nrhs S B' Y' cte.
  Proof.
    intros S B B' Y Y' cte E EB H j Hj. destruct (H j Hj) as (x & r & H1 & H2 & H3). exists x, r. split; [|split; [|exact H3]].
    - eapply largest_ext; [|exact H1]. intros i Hi. cbn beta. rewrite E by assumption. reflexivity.
    - eapply largest_ext; [|exact H2]. intros i Hi. cbn beta. unfold residual_at. rewrite EB by assumption.
      apply f_equal. apply (f_equal (fun v => nadd (nopp v) (B' i j))). apply nsum_ext. intros l Hl.
      rewrite E by assumption. reflexivity.
  Qed.

  Lemma conv_accepted : forall (S : Z -> Z -> N) (M1 M' : mem N) cte x0 r0,
    res_end X bB bX bR w bN x0 r0 S M1 M' -> conv_at X (bN, x0) (bN, r0) cte M' = true ->
    accepted n nrhs S (el M1 bB X) (el M1 bX X) cte.
  Proof.
    intros S M1 M' cte x0 r0 (_ & _ & H) C j Hj. destruct (H j Hj) as [H1 H2].
    exists (M' (bN, x0 + j)), (M' (bN, r0 + j)). split; [exact H1|]. split; [exact H2|].
    unfold conv_at in C. rewrite forallb_forall in C. specialize (C j (proj2 (in_zrange 0 _ j) Hj)).
    apply negb_true_iff in C. exact C.
  Qed.

  Variable S : Z -> Z -> N.
  Variable B : Z -> Z -> N.
  Hypothesis HH : forall i j, in_matrix n n i j -> S i j = nconj (S j i).
  Let blocks8 := [bA; bB; bX; bR; w; bN; bS; bXs].
  Let HRp : forall i, 0 <= i < n -> rp (S i i) = S i i.
  Proof. intros i Hi. apply Hrp. symmetry. apply HH. split; assumption. Qed.

  Definition solved (M' : mem N) : Prop := forall i j, in_matrix n nrhs i j ->
    nsum (fun l => nmul (S i l) (ul M' pX ldx l j)) 0 n = B i j.

  Variables (x0 r0 : Z).
  Hypothesis XR : x0 + d_n X <= r0 \/ r0 + d_n X <= x0.

  Lemma loop_ensures : forall cte left iiter (M : mem N) (Q : Z -> mem N -> Z -> Prop),
    (forall i j, in_matrix n n i j -> selects uplo i j -> S i j = el M bA A i j) ->
    (forall i j, 0 <= i < n -> 0 <= j < nrhs -> el M bB X i j = B i j) ->
    (forall iter M' st,
       (st = 0 -> iiter < iter <= iiter + Z.of_nat left /\ accepted n nrhs S B (ul M' pX ldx) cte \/
                  iter = -31 /\ solved M') ->
       (forall l, ~ In (fst l) blocks8 -> ~ in_user pX ldx n nrhs l -> M' l = M l) ->
       Q iter M' st) ->
    rprog_ensures (rafter (refinement narrow widen fits R rp solve_s uplo bA A bB bX bR bXs X w (bN, x0) (bN, r0) cte left iiter) out)
      M Q.
  Proof.
    intros cte left. induction left as [|left IH]; intros iiter M Q HSM HB HQ.
    - cbn [refinement rafter rprog_ensures].
      assert (N1 : bA <> bB) by nd 0%nat 1%nat. assert (N2 : bA <> bX) by nd 0%nat 2%nat. assert (N3 : bB <> bX) by nd 1%nat 2%nat.
      apply out_region.
      + apply (fall_back_kgood R rp nb); assumption.
      + apply (fall_back_sound R rp nb); assumption.
      + intros e E1 E2 E3. apply (fall_back_kdecl R rp nb); assumption.
      + intros k l Hk W. exact (fall_back_writes R rp nb A X uplo bA bB bX HA HX AS AX Hu k l Hk W).
      + intros M' st H1 H2. apply HQ.
        * intros E0. destruct (H1 E0) as [CZ EX]. right. split; [reflexivity|]. intros i j [Hi Hj].
          rewrite <- HB by assumption.
          rewrite <- (fall_back_result R rp Hrp nb A X uplo bA bB bX HA HX AS AX Pm Pn Hu N1 N2 N3 S M HSM HH CZ i j) by (split; assumption).
          apply nsum_ext. intros l Hl. rewrite EX by assumption. reflexivity.
        * intros l Hl HU. apply H2; [|exact HU]. intros I. apply Hl. cbn in I. unfold blocks8. cbn. tauto.
    - cbn [refinement rafter rprog_ensures].
      assert (NAX : bA <> bXs) by nd 0%nat 7%nat. assert (NAR : bA <> bR) by nd 0%nat 3%nat. assert (NAx : bA <> bX) by nd 0%nat 2%nat.
      assert (NBX : bB <> bXs) by nd 1%nat 7%nat. assert (NBR : bB <> bR) by nd 1%nat 3%nat. assert (NBx : bB <> bX) by nd 1%nat 2%nat.
      assert (NAw : bA <> w) by nd 0%nat 4%nat. assert (NAN : bA <> bN) by nd 0%nat 5%nat.
      assert (NBw : bB <> w) by nd 1%nat 4%nat. assert (NBN : bB <> bN) by nd 1%nat 5%nat.
      assert (NXR : bX <> bR) by nd 2%nat 3%nat. assert (NXw : bX <> w) by nd 2%nat 4%nat. assert (NXN : bX <> bN) by nd 2%nat 5%nat.
      assert (NXS : bX <> bXs) by nd 2%nat 7%nat.
      assert (SEG : forall o l, fst l <> bN -> ~ seg (bN, o) (d_n X) l) by (intros o l Hl (r & _ & ->); apply Hl; reflexivity).
      change (one_step narrow widen fits rp solve_s uplo bA A bB bX bR bXs X w (bN, x0) (bN, r0))
        with (join [pre] (residual rp uplo bA A bB bX bR X w (bN, x0) (bN, r0))).
      apply (residual_phases rp nb A X uplo bA bB bX bR w bN x0 r0 HA HX AS AX Pm Pn Hu ND6 XR pre pre_kgood pre_sound env
               env_functional pre_kdecl ltac:(cbn; tauto) ltac:(cbn; tauto) ltac:(cbn; tauto) ltac:(cbn; tauto)
               ltac:(cbn; tauto) S M).
      + intros i j Hij Hs. rewrite HSM by assumption. apply el_ext. intros l E. symmetry. apply pre_frame; congruence.
      + exact HH.
      + exact HRp.
      + intros M' _ HE. split; [|intros E; contradiction E; reflexivity]. intros _.
        remember (krun (map ck_task pre) M) as M1 eqn:EM1.
        assert (F1 : forall l, fst l <> bXs -> fst l <> bR -> fst l <> bX -> M1 l = M l) by (intros; subst M1; apply pre_frame; assumption).
        clear EM1. pose proof HE as (F2 & _ & _).
        assert (EB1 : forall i j, 0 <= i < n -> 0 <= j < nrhs -> el M1 bB X i j = B i j).
        { intros i j Hi Hj. rewrite <- HB by assumption. apply el_ext. intros l E. apply F1; congruence. }
        assert (FM : forall l, ~ In (fst l) blocks8 -> M' l = M l).
        { intros l Hl. unfold blocks8 in Hl. cbn in Hl. rewrite F2, F1; try (intros E; apply Hl; rewrite E; tauto); [reflexivity| |];
            apply SEG; intros E; apply Hl; rewrite E; tauto. }
        destruct (conv_at X (bN, x0) (bN, r0) cte M') eqn:C.
        * cbn [rafter rprog_ensures]. apply out_region.
          -- constructor.
          -- constructor.
          -- intros; constructor.
          -- intros k l [].
          -- intros M2 st H1 H2. apply HQ.
             ++ intros E0. destruct (H1 E0) as [_ EX]. left. split; [lia|].
                apply (accepted_ext S (el M1 bB X) B (el M1 bX X) (ul M2 pX ldx)).
                ** intros i j Hi Hj. rewrite EX by assumption. cbn. apply el_ext. intros l E. symmetry.
                   apply F2; try congruence; apply SEG; congruence.
                ** assumption.
                ** eapply conv_accepted; eassumption.
             ++ intros l Hl HU. rewrite H2; [apply FM; exact Hl| |exact HU]. intros I. apply Hl. unfold blocks8. cbn in I |- *. tauto.
        * apply IH.
          -- intros i j Hij Hs. rewrite HSM by assumption. symmetry. apply el_ext. intros l E.
             rewrite F2, F1; try congruence; apply SEG; congruence.
          -- intros i j Hi Hj. rewrite <- EB1 by assumption. apply el_ext. intros l E. apply F2; try congruence; apply SEG; congruence.
          -- intros iter M2 st H1 H2. apply HQ.
             ++ intros E0. destruct (H1 E0) as [[K1 K2]|K]; [left; split; [lia|assumption]|right; assumption].
             ++ intros l Hl HU. rewrite H2 by assumption. apply FM. exact Hl.
      + intros M' st NZ F. split; [intros; contradiction|]. intros _. apply HQ; [intros; contradiction|].
        intros l Hl _. apply F. intros I. apply Hl. unfold env in I. unfold blocks8. cbn in I |- *. tauto.
  Qed.
End Loop.
