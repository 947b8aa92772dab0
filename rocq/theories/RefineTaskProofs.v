From Coq Require Import ZArith List Bool Lia Permutation.
From Verif Require Import Base NumModel NumProofs FieldModel TaskModel TaskSpec TaskProofs GuardModel GuardSpec GuardProofs
  GuardProofs2 GuardAnyProofs PotrfDriverProofs DescProofs4 OperandProofs GemmProofs SwpModel DescModel DescSpec DescDriverModel DescProofs MatModel MatSpec MatProofs LayoutModel LayoutProofs
  RegionProofs SimProofs GemmDriverProofs OpProofs TriModel DriverModel PotrfModel PosvModel SymmModel SymmProofs EwModel EwProofs
  NormModel NormSpec NormProofs NormPhaseProofs NormDriverProofs NormZlangeProofs NormTriModel FillProofs LagModel LagProofs
  RefineTaskModel RefineTaskSpec.
Import ListNotations.
Open Scope Z_scope.

Lemma kcodes_all_sure : forall V (ks : list (ktask V)) M, Forall (fun c => c = 0) (kcodes (map sure ks) M).
Proof. intros V ks. induction ks as [|k ks IH]; intros M; cbn; constructor; auto. Qed.

Lemma guilty_sure : forall V (ks : list (ktask V)) M c, c <> 0 -> ~ guilty (map sure ks) M c.
Proof.
  intros V ks M c Hc (l1 & k & l2 & E & EC & _). apply Hc. rewrite <- EC.
  assert (Hk : In k (map sure ks)) by (rewrite E; apply in_or_app; right; left; reflexivity).
  apply in_map_iff in Hk. destruct Hk as (x & <- & _). reflexivity.
Qed.

Lemma gregion_sure : forall V (ks : list (ktask V)) M (Q : mem V -> Z -> Prop), Forall kgood ks -> klinked ks ->
  (forall M', meq M' (krun ks M) -> Q M' 0) -> gregion_ensures (map sure ks) M Q.
Proof.
  intros V ks M Q HG HK HQ. apply gregion_intro_any; rewrite ?map_sure; auto using cksound_sure.
  intros M' st H1 H2 _. destruct (Z.eq_dec st 0) as [->|E].
  - apply HQ. apply H1. reflexivity.
  - exfalso. eapply guilty_sure; eauto.
Qed.

Lemma gphases_mono : forall V (ph : list (list (cktask V))) M (Q Q' : mem V -> Z -> Prop),
  (forall M' st, Q M' st -> Q' M' st) -> gphases_ensures ph M Q -> gphases_ensures ph M Q'.
Proof.
  intros V ph. induction ph as [|ks r IH]; intros M Q Q' H HP; cbn [gphases_ensures] in *; auto.
  eapply gregion_mono; [|exact HP]. intros M' st [A B]. split; auto. intros E. eapply IH; eauto.
Qed.

(* the tasks of plasma_pdzamax on the tiles of D, with work = (w, off) *)
Section Amax.
  Context {N : normed}.
  Variables (nb bD : Z) (D : desc) (w off : Z).
  Hypothesis HD : dn nb D.
  Hypothesis Hw : bD <> w.
  Let Hb : 0 < nb := sq_pos nb D _ HD.

  Definition amo (p : Z * Z) : Z := off + (d_n D * fst p + snd p * d_nb D).
  Definition amt (p : Z * Z) : ktask N :=
    omp_amax_col ncabs1 (tile_mview D (fst p)) (tile_nview D (snd p)) (tptr bD D (fst p) (snd p))
      (tile_mmain D (fst p)) (pplus (w, off) (d_n D * fst p + snd p * d_nb D)).

  Lemma amt_eq : amax_col_tiles bD D (w, off) = map amt (idx_all D).
  Proof. exact (tasks_map D amt). Qed.

  Lemma amt_kgood : Forall kgood (amax_col_tiles (N := N) bD D (w, off)).
  Proof.
    rewrite amt_eq. apply Forall_map. apply Forall_forall. intros [m n] Hp. apply idx_all_in in Hp.
    apply amax_col_kgood. cbn [fst snd]. destruct (views nb D HD m n Hp). lia.
  Qed.

  Lemma amo_inj : forall p q r r', in_tiles D (fst p) (snd p) -> in_tiles D (fst q) (snd q) ->
    0 <= r < tile_nview D (snd p) -> 0 <= r' < tile_nview D (snd q) -> amo p + r = amo q + r' -> p = q.
  Proof.
    intros p q r r' Hp Hq Hr Hr' E. unfold amo in E. rewrite (sq_nb nb D _ HD) in E.
    destruct (views nb D HD _ _ Hp) as (_ & _ & _ & V4 & V5 & V6). destruct (views nb D HD _ _ Hq) as (_ & _ & _ & W4 & W5 & W6).
    apply (tile_off_inj nb p q r r' (d_n D) snd fst); try lia; [|nia..].
    intros [] []; cbn; congruence.
  Qed.

  Definition whome (o a : Z) : Prop :=
    exists p r, in_tiles D (fst p) (snd p) /\ 0 <= r < tile_nview D (snd p) /\ o = amo p + r /\ a = amo p.

  Lemma whome_functional : functionalZ whome.
  Proof.
    intros o a a' (p & r & P1 & P2 & P3 & P4) (q & r' & Q1 & Q2 & Q3 & Q4).
    assert (p = q) by (apply (amo_inj p q r r'); auto; congruence). congruence.
  Qed.

  Lemma whome_ge : forall o a, whome o a -> off <= o.
  Proof.
    intros o a ([m n] & r & P1 & P2 & -> & _). unfold amo. cbn [fst snd] in *. rewrite (sq_nb nb D _ HD).
    destruct (views nb D HD _ _ P1) as (V1 & V2 & V3 & V4 & V5 & V6). nia.
  Qed.

  Lemma amt_kdecl : forall env, In (bD, homeD D (in_tiles D)) env -> In (w, whome) env ->
    Forall (kdecl (home_env env)) (amax_col_tiles (N := N) bD D (w, off)).
  Proof.
    intros env ED EW. rewrite amt_eq. apply Forall_map. apply Forall_forall. intros [m n] Hp. apply idx_all_in in Hp.
    apply kdecl_intro; cbn [amt omp_amax_col k_deps k_reads k_writes fst snd]; intros l HR.
    - left. eexists. split; [left; reflexivity|]. cbn [dep_addr dep_in]. eapply home_tile; eauto.
    - eexists. split; [right; left; reflexivity|]. split; [|discriminate]. destruct HR as (r & Hr & ->).
      split; [reflexivity|]. exists whome. split; [exact EW|]. exists (m, n), r. unfold amo. cbn. auto.
  Qed.

  Lemma amt_frame : forall (M : mem N) l, fst l <> w -> krun (amax_col_tiles bD D (w, off)) M l = M l.
  Proof.
    intros M l Hl. rewrite amt_eq. apply fills_off; [rewrite <- amt_eq; apply kgood_sound, amt_kgood|].
    intros p _ (r & _ & ->). apply Hl. reflexivity.
  Qed.

  Lemma amt_before : forall (M : mem N) o, o < off -> krun (amax_col_tiles bD D (w, off)) M (w, o) = M (w, o).
  Proof.
    intros M o Ho. rewrite amt_eq. apply fills_off; [rewrite <- amt_eq; apply kgood_sound, amt_kgood|].
    intros [m n] Hp (r & Hr & E). apply idx_all_in in Hp. injection E as E.
    assert (whome o (amo (m, n))) as W by (exists (m, n), r; unfold amo; cbn [fst snd] in *; auto).
    apply whome_ge in W. lia.
  Qed.

  Lemma amt_at : forall (M : mem N) c k, 0 <= c < d_n D -> 0 <= k < d_mt D ->
    largest (fun i => 0 <= i < Z.min nb (d_m D - k * nb)) (fun i => ncabs1 (el M bD D (k * nb + i) c))
      (krun (amax_col_tiles bD D (w, off)) M (w, off + (d_n D * k + c))).
  Proof.
    intros M c k Hc Hk.
    pose proof (pos_tile nb D _ HD c (d_n D) Hc) as (P1 & P2 & P3).
    assert (HI : in_tiles D k (c / nb)).
    { split; [assumption|]. rewrite (dn_nt nb D HD). split; [assumption|]. unfold tsz in P2. apply ntl_spec; lia. }
    unfold tsz in P2. rewrite <- (nview_eq nb D HD k (c / nb) HI) in P2.
    rewrite <- (mview_eq nb D HD k (c / nb) HI).
    assert (EO : off + (d_n D * k + c) = amo (k, c / nb) + c mod nb).
    { unfold amo. cbn [fst snd]. rewrite (sq_nb nb D _ HD). lia. }
    rewrite EO, amt_eq.
    rewrite (fills_at w amt (idx_all D) M (k, c / nb)); [|rewrite <- amt_eq; apply kgood_sound, amt_kgood|apply idx_all_NoDup
      |apply idx_all_in; assumption| | | |].
    - cbn [amt omp_amax_col k_fun fst snd]. unfold amo. cbn [fst snd].
      change (pplus (w, off) (d_n D * k + c / nb * d_nb D)) with (w, off + (d_n D * k + c / nb * d_nb D)).
      rewrite (fill_in N (w, off + (d_n D * k + c / nb * d_nb D))) by assumption.
      destruct (views nb D HD k (c / nb) HI) as (V1 & V2 & _).
      eapply largest_ext; [|apply (fold_largest_first
        (fun i => ncabs1 (rd M (tptr bD D k (c / nb)) (tile_mmain D k) i (c mod nb)))); [lia|intros; apply nabs_cabs1]].
      intros i Hi. cbn beta in *. destruct (lag_rd (V := N) nb D HD M bD k (c / nb) i (c mod nb) HI Hi P2) as (-> & _).
      rewrite <- P3. reflexivity.
    - intros [m n] l _ Hl. cbn in Hl. apply reg_block in Hl. cbn in Hl. congruence.
    - intros y l _ (r & _ & ->). reflexivity.
    - exists (c mod nb). split; [assumption|]. reflexivity.
    - intros q Hq (r & Hr & E). assert (Hq' := Hq). destruct q as [m n]. apply idx_all_in in Hq'.
      symmetry. apply (amo_inj (k, c / nb) (m, n) (c mod nb) r); auto. injection E as E. exact E.
  Qed.
End Amax.

(* the last task of plasma_pdzamax, from the maxima of the tiles *)
Lemma amax_row_val : forall (N : normed) nb R K w off (G : Z -> Z -> N) (M : mem N), 0 < nb -> 0 < K -> 0 < R ->
  (forall i c, isabs (G i c)) ->
  (forall i k, 0 <= i < R -> 0 <= k < ntl nb K ->
     largest (fun c => 0 <= c < Z.min nb (K - k * nb)) (fun c => G i (k * nb + c)) (M (w, off + (R * k + i)))) ->
  forall i, 0 <= i < R -> largest (fun c => 0 <= c < K) (G i) (amax_row nabs (ntl nb K) (rd M (w, off) R) i).
Proof.
  intros N nb R K w off G M Hb HK HR HG HM i Hi. pose proof (ntl_pos nb K Hb HK) as HP.
  assert (LV : largest (fun k => 0 <= k < ntl nb K) (fun k => nabs (rd M (w, off) R i k))
                 (amax_row nabs (ntl nb K) (rd M (w, off) R) i)).
  { apply (fold_largest_first (fun k => nabs (rd M (w, off) R i k))); [assumption|]. intros; apply isabs_abs. }
  assert (AV : isabs (amax_row nabs (ntl nb K) (rd M (w, off) R) i)).
  { eapply largest_abs; [|exact LV]. intros; apply isabs_abs. }
  eapply (largest_nested Z Z (fun k => 0 <= k < ntl nb K)
    (fun k c => exists r, 0 <= r < Z.min nb (K - k * nb) /\ c = k * nb + r)
    _ _ (fun k => M (w, off + (R * k + i)))); auto.
  + intros k Hk. pose proof (ntl_lt nb K k Hb HK Hk). exists (k * nb + 0), 0. split; [lia|reflexivity].
  + intros c. split.
    * intros Hc. destruct (div_mod_pos c nb Hb) as [Ex Rx].
      assert (0 <= c / nb) by (apply Z.div_pos; lia).
      exists (c / nb). split; [split; [assumption|]; apply ntl_spec; lia|]. exists (c mod nb). lia.
    * intros (k & Hk & r & Hr & ->). nia.
  + intros k Hk. destruct (HM i k Hi Hk) as [L1 L2]. split.
    * intros q (r & Hr & ->). apply (L1 r). assumption.
    * destruct L2 as [(r & Hr & Ev)|[Hno _]].
      -- left. exists (k * nb + r). split; [exists r; auto|exact Ev].
      -- exfalso. apply (Hno 0). pose proof (ntl_lt nb K k Hb HK Hk). lia.
  + eapply largest_ext; [|exact LV]. intros k Hk. cbn beta. unfold rd, at_. cbn [fst snd].
    replace (off + i + k * R) with (off + (R * k + i)) by lia.
    apply (largest_abs _ _ _ _ (fun _ _ => HG _ _) (HM i k Hi Hk)).
Qed.

Lemma kcodes_app : forall V (a b : list (cktask V)) M,
  kcodes (a ++ b) M = kcodes a M ++ kcodes b (krun (map ck_task a) M).
Proof. intros V a. induction a as [|k a IH]; intros b M; cbn; [reflexivity|]. rewrite IH. reflexivity. Qed.
