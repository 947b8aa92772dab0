(* Applying Q and solving with R on parts of the matrices. *)
From Coq Require Import ZArith List Bool Lia Ring.
From Verif Require Import Base NumModel NumProofs FieldModel ControlModel TaskModel TaskSpec TaskProofs DescModel DescSpec DescDriverModel DescProofs DescProofs3 DescProofs4
  MatModel MatSpec MatProofs RegionProofs LayoutModel LayoutProofs LayoutProofs2 DriverModel DriverSpec OpProofs OperandProofs GemmProofs GemmDriverProofs RankDriverProofs
  TriModel TriSpec TriProofs TrsmProofs PosvProofs LasetModel LasetProofs
  QrModel QrSpec QrAlgProofs QrStepProofs QrKerProofs QrKerProofs2 QrMulProofs QrLiftProofs QrTaskProofs QrEffProofs QrUnmProofs QrFacProofs QrInvProofs QrListProofs QrDrvProofs QrDriverProofs
  LsModel LsViewProofs.
Import ListNotations.
Open Scope Z_scope.

Section Solve.
  Context {F : fields}.
  Add Ring num_ring_ls_solve : (nring F).
  Variables (nb : Z) (A B : desc) (bA bB uplo n trans : Z).
  Hypotheses (GA : gen_ok A) (HA : dn nb A) (GB : gen_ok B) (HB : dn nb B).
  Hypothesis Hu : valid_uplo uplo.
  Hypotheses (Hn : 0 < n) (An : n <= d_n A) (Am : n <= d_m A) (Bm : n <= d_m B) (Bn : 0 < d_n B).
  Hypothesis NAB : bA <> bB.

  Definition view_tasks : list (ktask F) :=
    with_view A 0 0 n n (fun VA => with_view B 0 0 n (d_n B) (fun VB =>
      pztrsm PlasmaLeft uplo trans PlasmaNonUnit n1 bA VA bB VB)).

  Let Hb : 0 < nb.
  Proof. apply (sq_pos nb A _ HA). Qed.

  Lemma view_sides : forall V, dn nb V -> d_m V = n -> d_n V = n ->
    forall i j, 0 <= i < ntl nb (d_n V) -> 0 <= j < ntl nb (d_n V) -> uplo_sel uplo i j = true -> in_tiles V i j.
  Proof.
    intros V HV Vm Vn i j Hi Hj _. rewrite Vn in Hi, Hj. apply (dn_in nb V i j HV). rewrite Vm, Vn.
    destruct (ntl_spec nb n i Hb ltac:(lia) ltac:(lia)) as [X _]. destruct (ntl_spec nb n j Hb ltac:(lia) ltac:(lia)) as [Y _].
    specialize (X ltac:(lia)). specialize (Y ltac:(lia)). lia.
  Qed.

  Lemma view_tasks_ok : forall env, In (bA, homeD A (in_tiles A)) env -> In (bB, homeD B (in_tiles B)) env ->
    Forall (fun k => kgood k /\ kdecl (home_env env) k) view_tasks.
  Proof.
    intros env EA EB. unfold view_tasks, with_view.
    destruct (top_view nb A n n GA (sq_mb _ _ _ HA) (sq_nb _ _ _ HA)) as (VA & E1 & DA & A1 & A2 & A3 & A4); try lia.
    destruct (top_view nb B n (d_n B) GB (sq_mb _ _ _ HB) (sq_nb _ _ _ HB)) as (VB & E2 & DB & B1 & B2 & B3 & B4); try lia.
    rewrite E1, E2.
    pose proof (view_sides VA DA A1 A2) as SD.
    apply Forall_forall. intros k Hk. split.
    - revert k Hk. apply Forall_forall. apply (pztrsm_kgood nb VA VB (in_tiles VA)); auto; try congruence; cbn; congruence.
    - apply (kdecl_sub F bA (homeD A (in_tiles A)) (homeD VA (in_tiles VA))); [assumption|assumption|].
      apply (kdecl_sub F bB (homeD B (in_tiles B)) (homeD VB (in_tiles VB))); [right; assumption|assumption|].
      revert k Hk. apply Forall_forall. apply (pztrsm_kdecl nb VA VB (in_tiles VA)); auto; try congruence; try (cbn; congruence).
      + right. left. reflexivity.
      + left. reflexivity.
  Qed.

  Lemma view_tasks_at : forall M T,
    (forall i j, 0 <= i < n -> 0 <= j < n -> T i j = if uplo_sel uplo i j then el M bA A i j else n0) ->
    (forall i, 0 <= i < n -> T i i <> n0) ->
    (forall l, fst l <> bB -> krun view_tasks M l = M l) /\
    (forall i j, n <= i < d_m B -> 0 <= j < d_n B -> el (krun view_tasks M) bB B i j = el M bB B i j) /\
    (forall i j, 0 <= i < n -> 0 <= j < d_n B ->
       nsum (fun l => nmul (op_of trans T i l) (el (krun view_tasks M) bB B l j)) 0 n = el M bB B i j).
  Proof.
    intros M T HT HD. unfold view_tasks, with_view.
    destruct (top_view nb A n n GA (sq_mb _ _ _ HA) (sq_nb _ _ _ HA)) as (VA & E1 & DA & A1 & A2 & A3 & A4); try lia.
    destruct (top_view nb B n (d_n B) GB (sq_mb _ _ _ HB) (sq_nb _ _ _ HB)) as (VB & E2 & DB & B1 & B2 & B3 & B4); try lia.
    rewrite E1, E2.
    pose proof (view_sides VA DA A1 A2) as SD.
    remember (fun l : loc => el M bA A (snd l mod n) (snd l / n)) as Mu eqn:EMu.
    assert (UL : forall i j, 0 <= i < n -> ul Mu (0, 0) n i j = el M bA A i j).
    { intros i j Hi. unfold ul. rewrite EMu. cbn [fst snd]. rewrite Z.add_0_l. f_equal.
      - rewrite Z.mod_add by lia. apply Z.mod_small. lia.
      - rewrite Z.div_add by lia. rewrite Z.div_small by lia. lia. }
    assert (US : forall i j, uplo_sel uplo i j = true <-> selects uplo i j).
    { intros i j. unfold selects. destruct Hu as [-> | ->]; unfold uplo_sel; cbn; rewrite Z.leb_le.
      - split; [intros; left; auto|]. intros [[_ X]|[X _]]; [exact X|discriminate X].
      - split; [intros; right; auto|]. intros [[X _]|[_ X]]; [discriminate X|exact X]. }
    assert (TR : is_triangle Mu uplo PlasmaNonUnit (0, 0) n n T).
    { intros i j [Hi Hj]. rewrite HT by assumption. split; [|split].
      - intros S _. apply US in S. rewrite S. symmetry. apply UL. assumption.
      - intros _ X. discriminate X.
      - intros S. destruct (uplo_sel uplo i j) eqn:E; [|reflexivity]. exfalso. apply S. apply US. assumption. }
    destruct (one_solve nb VA VB (in_tiles VA) bA bB uplo n DA DB Hu A1 A2 B1 SD NAB Mu (0, 0) n T TR HD ltac:(lia) M trans) as [S1 S2].
    { intros i j Hi Hj S. rewrite UL by assumption. apply A3. }
    remember (krun (pztrsm PlasmaLeft uplo trans PlasmaNonUnit n1 bA VA bB VB) M) as M' eqn:EM'.
    split; [assumption|]. split.
    - intros i j Hi Hj. rewrite EM'. unfold el. apply krun_frame.
      + apply Forall_forall. intros k Hk. apply kg_sound.
        revert k Hk. apply Forall_forall. apply (pztrsm_kgood nb VA VB (in_tiles VA)); auto; try congruence; cbn; congruence.
      + intros (k & Hk & W).
        assert (KD : Forall (kdecl (home_env [(bA, homeD VA (in_tiles VA)); (bB, homeD VB (in_tiles VB))])) (pztrsm (F := F) PlasmaLeft uplo trans PlasmaNonUnit n1 bA VA bB VB)).
        { apply (pztrsm_kdecl nb VA VB (in_tiles VA)); auto; try congruence; try (cbn; congruence).
          - left. reflexivity.
          - right. left. reflexivity. }
        rewrite Forall_forall in KD. destruct (KD k Hk) as [_ KW]. destruct (KW _ W) as (d & _ & (_ & h & HI & HO) & _).
        cbn [fst] in HI. destruct HI as [HI|[HI|[]]]; [congruence|].
        assert (EH : h = homeD VB (in_tiles VB)) by congruence. rewrite EH in HO. clear HI EH.
        destruct HO as (tm & tn & r & c & [HM HN] & Hr & Hc & EO & _). cbn [snd] in EO.
        pose proof (td_shape _ _ (sq_t _ _ _ DB)) as SV.
        rewrite <- (elem_off_tile VB tm tn r c SV HM HN Hr Hc) in EO.
        destruct (tile_row VB tm r SV HM Hr) as (R1 & _). destruct (tile_col VB tn c SV HN Hc) as (R2 & _).
        assert (EE : elem_off VB (tm * d_mb VB + r) (tn * d_nb VB + c) = elem_off B (tm * d_mb VB + r) (tn * d_nb VB + c)).
        { pose proof (B3 Z (fun l => snd l) 0 (tm * d_mb VB + r) (tn * d_nb VB + c)) as X. exact X. }
        rewrite EE in EO. apply (gen_ok_inj B) in EO; try assumption; try lia.
    - intros i j Hi Hj. rewrite <- (B3 F M bB i j). rewrite <- (S2 i j Hi) by lia. apply nsum_ext. intros l Hl. rewrite B3. reflexivity.
  Qed.
End Solve.
