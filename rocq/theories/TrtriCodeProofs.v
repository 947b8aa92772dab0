(* The codes reported by the tasks of the inversion of a triangular matrix. *)
From Coq Require Import ZArith List Bool Lia Ring.
From Verif Require Import Base NumModel NumProofs FieldModel TaskModel TaskSpec TaskProofs DescModel DescSpec
  DescDriverModel DescProofs DescPackProofs DescProofs3 DescProofs4 MatModel MatSpec MatProofs RegionProofs
  GuardModel GuardSpec GuardProofs GuardProofs2 GuardAnyProofs
  LayoutModel LayoutProofs LayoutProofs2 DriverModel DriverSpec OpProofs SimProofs OperandProofs
  GemmModel GemmProofs GemmDriverProofs RankModel RankProofs RankDriverProofs LasetModel LasetProofs
  TriModel TriSpec TriVecProofs TriProofs TrmmProofs TrsmProofs PotrfModel CholProofs PotrfProofs InvProofs ViewProofs TrtriModel TrtriTaskProofs TrtriStepProofs TrtriProofs.
Import ListNotations.
Open Scope Z_scope.

Lemma guilty_code : forall V (ks : list (cktask V)) M c, guilty ks M c -> In c (kcodes ks M).
Proof.
  intros V ks M c (l1 & k & l2 & -> & <- & _). rewrite kcodes_app. apply in_or_app. right. left. reflexivity.
Qed.

Lemma first_code_all0 : forall l, Forall (fun c => c = 0) l -> first_code l = 0.
Proof. intros l H. induction H as [|c l E H IH]; cbn; [reflexivity|]. rewrite E. exact IH. Qed.

(* sequential execution from a memory with P ends in one with Q, the tasks reporting cs *)
Definition gl {V} (P : mem V -> Prop) (ks : list (cktask V)) (cs : list Z) (Q : mem V -> Prop) : Prop :=
  forall M, P M -> Q (krun (map ck_task ks) M) /\ kcodes ks M = cs.

Lemma gl_app : forall V (P Q R : mem V -> Prop) a b c d, gl P a c Q -> gl Q b d R -> gl P (a ++ b) (c ++ d) R.
Proof.
  intros V P Q R a b c d H1 H2 M HP. destruct (H1 M HP) as [A1 A2]. destruct (H2 _ A1) as [B1 B2].
  rewrite map_app, krun_app, kcodes_app, A2, B2. auto.
Qed.

Lemma gl_sure : forall V (P : mem V -> Prop) ks, Forall (fun k => forall M, P M -> P (k_fun k M)) ks ->
  gl P (map sure ks) (map (fun _ => 0) ks) P.
Proof.
  intros V P ks H. induction H as [|k ks Hk H IH]; intros M HP; cbn; [auto|].
  destruct (IH _ (Hk M HP)) as [B1 B2]. split; [exact B1|]. rewrite B2. reflexivity.
Qed.

Lemma gl_loop : forall V (P : Z -> mem V -> Prop) f c lo hi, lo <= hi ->
  (forall k, lo <= k < hi -> gl (P k) (f k) (c k) (P (k + 1))) ->
  gl (P lo) (flat_map f (zrange lo hi)) (flat_map c (zrange lo hi)) (P hi).
Proof.
  intros V P f c lo hi. pattern hi. apply (zrange_ind_hi _ lo); clear hi.
  - intros hi H1 H2 _. assert (hi = lo) as -> by lia. rewrite zrange_nil by lia. intros M HP. auto.
  - intros hi Hh IH H1 H2. rewrite zrange_snoc by lia. rewrite !flat_map_app. cbn [flat_map]. rewrite !app_nil_r.
    apply (gl_app _ _ (P hi)); [apply IH; [lia|intros k Hk; apply H2; lia]|apply H2; lia].
Qed.

Lemma krun_keep : forall V B (f : mem V -> B) (ks : list (ktask V)), Forall (fun k => forall M, f (k_fun k M) = f M) ks ->
  forall M, f (krun ks M) = f M.
Proof.
  intros V B f ks H. induction H as [|k ks Hk H IH]; intros M; cbn; [reflexivity|]. rewrite IH. apply Hk.
Qed.

Section Codes.
  Context {F : fields}.
  Add Ring num_ring_trtri_codes : (nring F).
  Variables (nb n : Z) (A : desc) (SA : Z -> Z -> Prop) (bA uplo diag : Z).
  Hypothesis Hu : valid_uplo uplo.
  Hypothesis HQ : sq nb A SA.
  Hypotheses (DM : d_m A = n) (DN : d_n A = n).
  Let nt := ntl nb n.
  Hypothesis HSA : forall i j, 0 <= i < nt -> 0 <= j < nt -> uplo_sel uplo i j = true -> SA i j.
  Let Hb : 0 < nb := sq_pos nb A _ HQ.
  Let Hn : 0 <= n.
  Proof. rewrite <- DM. apply (go_m A (td_shape _ _ (sq_t nb A _ HQ))). Qed.

  Local Notation low := (vlow uplo).
  Local Notation tm := (vr uplo).
  Local Notation tn := (vc uplo).
  Local Notation tp := (vp A bA uplo).
  Local Notation tl := (vl A uplo).
  Local Notation rel := (vrel nb n A bA uplo).
  Local Notation stored := (vstored nb n).

  Let t_ld : forall m k, 0 <= k <= m -> m < nt -> tsz nb n (tm m k) <= tl m k.
  Proof. exact (vt_ld nb n A SA uplo Hu HQ DM HSA). Qed.
  Let t_full : forall k m, 0 <= k < m -> m < nt -> tsz nb n k = nb.
  Proof. exact (vt_full nb n A SA HQ DM). Qed.
  Let t_pos : forall k, 0 <= k < nt -> 0 < tsz nb n k <= nb.
  Proof. exact (vt_pos nb n A SA HQ DM). Qed.
  Let t_sel : forall a c, uplo_sel uplo (tm a c) (tn a c) = (c <=? a).
  Proof. exact (vsel nb n SA uplo Hu HSA). Qed.
  Let pos_el : forall m a, 0 <= m < nt -> 0 <= a < tsz nb n m ->
    0 <= m * nb + a < n /\ (m * nb + a) / nb = m /\ (m * nb + a) mod nb = a.
  Proof. exact (vpos_el nb n A SA HQ). Qed.
  Let el_pos : forall i, 0 <= i < n -> 0 <= i / nb < nt /\ 0 <= i mod nb < tsz nb n (i / nb) /\ i = i / nb * nb + i mod nb.
  Proof. exact (vel_pos nb n A SA HQ DM). Qed.

  Local Notation rtask := (@rtask F nb n A bA uplo diag).
  Local Notation utask := (@utask F nb n A bA uplo).
  Local Notation ltask := (@ltask F nb n A bA uplo diag).
  Local Notation ttask := (@ttask F nb n A bA uplo diag).
  Local Notation trest := (@trest F nb n A bA uplo diag).
  Local Notation tlist := (@tlist F nb n A bA uplo diag).
  Local Notation view := (@vview F A bA uplo).

  Lemma set_other : forall (M : mem F) m k P P' f i j, 0 <= k <= m -> m < nt ->
    (forall a c, P (tm a c) (tn a c) = P' a c) -> stored i j -> ~ (i / nb = m /\ j / nb = k) ->
    view (mset (tp m k) (tl m k) (tsz nb n (tm m k)) (tsz nb n (tn m k)) P f M) i j = view M i j.
  Proof.
    intros M m k P P' f i j Hk Hm HP Hij HN.
    remember (fun i j => if (i / nb =? m) && (j / nb =? k) && P' (i mod nb) (j mod nb)
      then (if low then f (i mod nb) (j mod nb) else nconj (f (j mod nb) (i mod nb))) else view M i j) as X' eqn:EX.
    assert (R0 : rel M (view M) M) by (split; auto).
    destruct (vrel_set nb n A SA bA uplo Hu HQ DM DN HSA M (view M) X' M m k P P' f R0 Hk Hm HP) as [_ R].
    - intros a c Ha Hc HPP. destruct (pos_el m a ltac:(lia) Ha) as (_ & A2 & A3). destruct (pos_el k c ltac:(lia) Hc) as (_ & C2 & C3).
      rewrite EX, A2, C2, A3, C3, !Z.eqb_refl, HPP. reflexivity.
    - intros a c Hac HNN. rewrite EX. destruct ((a / nb =? m) && (c / nb =? k) && P' (a mod nb) (c mod nb)) eqn:E; [|reflexivity].
      exfalso. apply HNN. rewrite !andb_true_iff, !Z.eqb_eq in E. tauto.
    - rewrite R by assumption. rewrite EX. destruct ((i / nb =? m) && (j / nb =? k)) eqn:E; [|reflexivity].
      exfalso. apply HN. rewrite andb_true_iff, !Z.eqb_eq in E. tauto.
  Qed.

  (* the tiles above those of the view are left alone *)
  Lemma set_opp : forall (M : mem F) m k P f i j, 0 <= k <= m -> m < nt -> 0 <= i < n -> 0 <= j < n ->
    SA (i / nb) (j / nb) -> (if low then i / nb < j / nb else j / nb < i / nb) ->
    el (mset (tp m k) (tl m k) (tsz nb n (tm m k)) (tsz nb n (tn m k)) P f M) bA A i j = el M bA A i j.
  Proof.
    intros M m k P f i j Hk Hm Hi Hj HS HO.
    rewrite <- (vt_mv nb n A SA uplo Hu HQ DM HSA m k), <- (vt_nv nb n A SA uplo Hu HQ DN HSA m k) by assumption.
    unfold vp, vl. rewrite (sq_set nb A _ HQ); auto; [|apply (vt_S nb n SA uplo Hu HSA); assumption|rewrite DM; assumption|rewrite DN; assumption].
    replace ((i / nb =? tm m k) && (j / nb =? tn m k)) with false; [reflexivity|]. symmetry. apply not_true_is_false.
    rewrite andb_true_iff, !Z.eqb_eq. unfold vr, vc. destruct low; lia.
  Qed.

  Lemma tlist_opp : forall (M : mem F) i j, 0 <= i < n -> 0 <= j < n ->
    SA (i / nb) (j / nb) -> (if low then i / nb < j / nb else j / nb < i / nb) ->
    el (krun (map ck_task tlist) M) bA A i j = el M bA A i j.
  Proof.
    intros M i j Hi Hj HS HO. apply (krun_keep F F (fun M => el M bA A i j)).
    apply Forall_forall. intros x Hx. apply in_map_iff in Hx. destruct Hx as (y & <- & Hy). revert y Hy.
    apply (proj1 (Forall_forall (fun y => forall M, el (k_fun (ck_task y) M) bA A i j = el M bA A i j) tlist)).
    apply (tlist_all nb n A bA uplo diag (fun y => forall M, el (k_fun (ck_task y) M) bA A i j = el M bA A i j)); fold nt.
    - intros k m Hk Hm M'. apply set_opp; auto; lia.
    - intros k m c Hc Hm M'. apply set_opp; auto; lia.
    - intros k c Hc Hk M'. apply set_opp; auto; lia.
    - intros k Hk M'. cbn [TrtriTaskProofs.ttask omp_ztrtri ck_task k_fun]. unfold core_ztrtri.
      destruct (core_ztrtri_info diag (tsz nb n k) (tp k k) (tl k k) M' =? 0); [|reflexivity].
      pose proof (fun P f => set_opp M' k k P f i j) as G. rewrite vr_diag, vc_diag in G. apply G; auto; lia.
  Qed.

  Lemma diag_stored : forall i, 0 <= i < n -> stored i i.
  Proof. intros i Hi. repeat split; try lia. Qed.

  Variable SS : Z -> Z -> F.
  Definition PD (k : Z) (M : mem F) : Prop := forall i, k * nb <= i < n -> view M i i = SS i i.

  Lemma trest_PD : forall k, 0 <= k < nt -> Forall (fun t => forall M, PD k M -> PD k (k_fun t M)) (trest k).
  Proof.
    intros k Hk. apply trest_all; fold nt; auto.
    - intros m Hm M HP i Hi. rewrite <- HP by assumption.
      apply set_other with (P' := fun _ _ => true); auto; try lia. apply diag_stored. nia.
    - intros m j Hj Hm M HP i Hi. rewrite <- HP by assumption.
      apply set_other with (P' := fun _ _ => true); auto; try lia. apply diag_stored. nia.
    - intros j Hj M HP i Hi. rewrite <- HP by assumption.
      apply set_other with (P' := fun _ _ => true); auto; try lia. apply diag_stored. nia.
  Qed.

  Lemma ttask_PD : forall k M, 0 <= k < nt -> PD k M -> PD (k + 1) (k_fun (ck_task (ttask k)) M).
  Proof.
    intros k M Hk HP i Hi. rewrite <- HP by nia.
    cbn [TrtriTaskProofs.ttask omp_ztrtri ck_task k_fun]. unfold core_ztrtri.
    destruct (core_ztrtri_info diag (tsz nb n k) (tp k k) (tl k k) M =? 0); [|reflexivity].
    pose proof (fun f => set_other M k k (tri_sel uplo diag) (tsel diag) f i i) as G. rewrite vr_diag, vc_diag in G.
    apply G; try lia.
    - intros a c. apply (tri_sel_view nb n SA uplo diag Hu HSA).
    - apply diag_stored. nia.
    - intros [E _]. pose proof (Z.div_le_lower_bound i nb (k + 1) Hb ltac:(lia)). lia.
  Qed.

  Lemma ttask_code : forall k M, 0 <= k < nt -> PD k M -> ck_info (ttask k) M = dcode nb n diag SS k.
  Proof.
    intros k M Hk HP.
    destruct (ttask_info nb n A SA bA uplo diag Hu HQ DM DN HSA M (view M) M k ltac:(split; auto) Hk) as [E _].
    rewrite E. unfold dcode. destruct (diag =? PlasmaUnit); [reflexivity|].
    rewrite (find_ext _ (fun a => neqb (SS (k * nb + a) (k * nb + a)) n0)); [reflexivity|].
    intros a Ha. apply in_zrange in Ha. destruct (pos_el k a Hk Ha) as (P1 & _). rewrite HP by lia. reflexivity.
  Qed.

  Lemma tlist_codes :
    gl (PD 0) tlist (flat_map (fun k => map (fun _ => 0) (trest k) ++ [dcode nb n diag SS k]) (zrange 0 nt)) (PD nt).
  Proof.
    assert (NT : 0 <= nt) by (unfold nt, ntl; apply Z.div_pos; lia).
    apply (gl_loop F PD); [assumption|]. intros k Hk. apply (gl_app _ _ (PD k)).
    - apply gl_sure. apply trest_PD. assumption.
    - intros M HP. split; [apply ttask_PD; assumption|]. cbn [kcodes]. rewrite ttask_code by assumption. reflexivity.
  Qed.

  (* a code is 0, or the number of a zero diagonal element *)
  Lemma tlist_code_in : forall M c, PD 0 M -> In c (kcodes tlist M) -> c <> 0 ->
    diag <> PlasmaUnit /\ 0 < c <= n /\ SS (c - 1) (c - 1) = n0 /\
    forall i, (c - 1) / nb * nb <= i < c - 1 -> SS i i <> n0.
  Proof.
    intros M c HP HI HC. destruct (tlist_codes M HP) as [_ E]. rewrite E in HI. apply in_flat_map in HI.
    destruct HI as (k & Hk & HI). apply in_zrange in Hk. apply in_app_or in HI. destruct HI as [HI|[HI|[]]].
    - apply in_map_iff in HI. destruct HI as (x & <- & _). contradiction.
    - unfold dcode in HI. destruct (Z.eqb_spec diag PlasmaUnit) as [ED|ED]; [congruence|]. split; [assumption|].
      destruct (find _ _) as [a|] eqn:EF; [|congruence]. 
      assert (FS : forall (f : Z -> bool) b lo x, find f (zrange lo b) = Some x ->
        lo <= x < b /\ f x = true /\ forall y, lo <= y < x -> f y = false).
      { clear. intros f b lo. remember (Z.to_nat (b - lo)) as z eqn:Ez. revert lo Ez. induction z as [|z IH]; intros lo Ez x.
        - rewrite zrange_nil by lia. discriminate.
        - rewrite zrange_cons by lia. cbn. destruct (f lo) eqn:EL.
          + intros E. injection E as <-. repeat split; auto; lia.
          + intros E. destruct (IH (lo + 1) ltac:(lia) x E) as (H1 & H2 & H3). repeat split; auto; try lia.
            intros y Hy. destruct (Z.eq_dec y lo) as [->|]; [assumption|]. apply H3. lia. }
      apply FS in EF. destruct EF as (F1 & F2 & F3). apply neqb_eq in F2.
      destruct (pos_el k a Hk F1) as (P1 & P2 & _). replace (c - 1) with (k * nb + a) by lia. rewrite P2.
      split; [lia|]. split; [assumption|]. intros i Hi EI. specialize (F3 (i - k * nb) ltac:(lia)).
      replace (k * nb + (i - k * nb)) with i in F3 by lia. apply neqb_eq in EI. congruence.
  Qed.

  Lemma tlist_codes0 : forall M, PD 0 M -> Forall (fun c => c = 0) (kcodes tlist M) ->
    diag <> PlasmaUnit -> forall i, 0 <= i < n -> SS i i <> n0.
  Proof.
    intros M HP HF HU i Hi EI. destruct (tlist_codes M HP) as [_ E]. rewrite E in HF.
    destruct (el_pos i Hi) as (K & B1 & B2).
    assert (HI : In (dcode nb n diag SS (i / nb))
      (flat_map (fun k => map (fun _ => 0) (trest k) ++ [dcode nb n diag SS k]) (zrange 0 nt))).
    { apply in_flat_map. exists (i / nb). split; [apply in_zrange; assumption|]. apply in_or_app. right. left. reflexivity. }
    rewrite Forall_forall in HF. apply HF in HI. unfold dcode in HI.
    destruct (Z.eqb_spec diag PlasmaUnit) as [ED|ED]; [congruence|].
    destruct (find _ _) as [a|] eqn:EF.
    - apply find_some in EF. destruct EF as [EF _]. apply in_zrange in EF. assert (0 <= i / nb * nb) by nia. lia.
    - pose proof (find_none _ _ EF (i mod nb) ltac:(apply in_zrange; assumption)) as Q. cbn in Q. rewrite <- B2 in Q.
      apply neqb_eq in EI. congruence.
  Qed.
End Codes.
