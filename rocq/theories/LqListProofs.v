(* The task lists of the tile LQ routines against those of the tile QR routines. *)
From Coq Require Import ZArith List Bool Lia Ring.
From Verif Require Import Base NumModel NumProofs TaskModel TaskSpec TaskProofs DescModel DescSpec DescProofs MatModel MatSpec MatProofs RegionProofs
  LayoutModel LayoutProofs LayoutProofs2 DriverModel OpProofs GemmProofs QrModel QrSpec QrAlgProofs QrStepProofs QrKerProofs QrKerProofs2 QrMulProofs QrLiftProofs QrTaskProofs QrEffProofs
  QrUnmProofs QrFacProofs QrInvProofs QrListProofs LqModel LqDualProofs LqDual2Proofs LqSimProofs.
Import ListNotations.
Open Scope Z_scope.

Lemma Forall2_map_in : forall {X Y W} (P : Y -> W -> Prop) (f : X -> Y) (g : X -> W) l,
  (forall x, In x l -> P (f x) (g x)) -> Forall2 P (map f l) (map g l).
Proof. intros X Y W P f g l H. induction l as [|x l IH]; cbn; constructor; [apply H; left; reflexivity|]. apply IH. intros; apply H; right; assumption. Qed.
Lemma Forall2_flat_in : forall {X Y W} (P : Y -> W -> Prop) (f : X -> list Y) (g : X -> list W) l,
  (forall x, In x l -> Forall2 P (f x) (g x)) -> Forall2 P (flat_map f l) (flat_map g l).
Proof.
  intros X Y W P f g l H. induction l as [|x l IH]; cbn [flat_map]; [constructor|]. apply Forall2_app; [apply H; left; reflexivity|].
  apply IH. intros; apply H; right; assumption.
Qed.

Section Lists.
  Context {N : numbers}.
  Variables nb ib : Z.
  Hypothesis Hnb : 0 < nb.
  Hypothesis Hib : 0 < ib.
  Variables (T T' : desc) (bT : Z).
  Hypothesis HT : tok nb ib 0 0 T.
  Hypothesis HT' : tok nb ib 0 0 T'.
  Variables (A A' : desc) (bA : Z).
  Hypothesis PA : paired nb A A'.
  Hypothesis HTin : forall k q, 0 <= k <= q -> k * nb < d_m A -> q * nb < d_n A -> in_tiles T k q /\ in_tiles T' q k.

  Lemma paired_counts : forall X X', paired nb X X' -> d_mt X' = d_nt X /\ d_nt X' = d_mt X.
  Proof.
    intros X X' (D & D' & E1 & E2). pose proof (td_shape _ _ (sq_t _ _ _ D)) as S. pose proof (td_shape _ _ (sq_t _ _ _ D')) as S'.
    rewrite (mt_aligned_ntl nb X S (sq_mb _ _ _ D)), (nt_aligned_ntl nb X S (sq_nb _ _ _ D)),
      (mt_aligned_ntl nb X' S' (sq_mb _ _ _ D')), (nt_aligned_ntl nb X' S' (sq_nb _ _ _ D')), E1, E2. auto.
  Qed.

  Lemma cnt_m : forall X k, dn nb X -> 0 <= k -> k < d_mt X <-> k * nb < d_m X.
  Proof.
    intros X k D Hk. pose proof (td_shape _ _ (sq_t _ _ _ D)) as S. rewrite (mt_aligned_ntl nb X S (sq_mb _ _ _ D)).
    apply ntl_spec; [assumption|apply (go_m X S)|assumption].
  Qed.
  Lemma cnt_n : forall X k, dn nb X -> 0 <= k -> k < d_nt X <-> k * nb < d_n X.
  Proof.
    intros X k D Hk. pose proof (td_shape _ _ (sq_t _ _ _ D)) as S. rewrite (nt_aligned_ntl nb X S (sq_nb _ _ _ D)).
    apply ntl_spec; [assumption|apply (go_n X S)|assumption].
  Qed.

  Lemma tsz_full : forall n k q, k < q -> q * nb < n -> tsz nb n k = nb.
  Proof. intros n k q H1 H2. unfold tsz. nia. Qed.

  Variable env : list (Z * (Z -> Z -> Prop)).
  Hypothesis HEA : In (bA, homeD A (in_tiles A)) env.
  Hypothesis HET : In (bT, homeD T (in_tiles T)) env.
  Hypothesis NT : bA <> bT.

  Ltac sizes X X' x y PX IX :=
    let h := fresh "Sz" in let a := fresh "Sa" in let b := fresh "Sb" in let c := fresh "Sc" in let d := fresh "Sd" in
    pose proof (paired_sizes nb X X' x y PX IX) as h; destruct h as (a & b & c & d); rewrite ?a, ?b, ?c, ?d; clear a b c d.

  Variable lg : N -> list N -> N * N * list N.

  Lemma gelqf_okp : Forall2 (okp (N := N) nb ib T T' bT A A' A A' bA bA env True) (pzgelqf lg bA A bT T) (pzgeqrf lg bA A' bT T').
  Proof.
    destruct (paired_counts A A' PA) as [C1 C2]. assert (PA' := PA). destruct PA' as (D & D' & E1 & E2).
    assert (HAB : (bA = bA /\ A = A /\ A' = A') \/ bA <> bA) by auto. assert (NT2 : bA <> bT /\ bA <> bT) by auto.
    pose proof (okp_unm (N := N) nb ib Hnb Hib T T' bT HT A A' A A' bA bA PA PA HAB NT2 env HEA HEA HET True) as GU. pose proof (okp_tsm (N := N) nb ib Hnb Hib T T' bT HT A A' A A' bA bA PA PA HAB NT2 env HEA HEA HET True) as GM.
    pose proof (okp_gelqt (N := N) nb ib Hnb Hib T T' bT HT HT' A A' A A' bA bA PA PA HAB NT2 env HEA HET True) as GG. pose proof (okp_tslqt (N := N) nb ib Hnb Hib T T' bT HT HT' A A' A A' bA bA PA PA HAB NT2 env HEA HET True) as GS.
    rewrite (tk_mb _ _ _ _ _ HT), (tk_mb _ _ _ _ _ HT') in GU, GM, GG, GS.
    assert (J : forall x y, 0 <= x < d_mt A -> 0 <= y < d_nt A -> in_tiles A x y) by (intros; split; assumption).
    unfold pzgelqf, pzgeqrf. cbv zeta. rewrite C1, C2, (Z.min_comm (d_nt A)). rewrite (tk_mb _ _ _ _ _ HT), (tk_mb _ _ _ _ _ HT').
    apply Forall2_flat_in. intros k Hk. apply in_zrange in Hk.
    assert (Ik : in_tiles A k k) by (apply J; lia).
    assert (Kb : k * nb < d_m A /\ k * nb < d_n A) by (split; [apply (cnt_m A k D)|apply (cnt_n A k D)]; lia).
    assert (B1 : 0 <= tsz nb (d_m A) k <= nb /\ 0 <= tsz nb (d_n A) k <= nb) by (unfold tsz; lia).
    destruct (HTin k k ltac:(lia) ltac:(lia) ltac:(lia)) as [IT1 IT2].
    constructor; [|apply Forall2_app].
    - sizes A A' k k PA Ik. apply (GG lg I); try assumption; lia.
    - apply Forall2_map_in. intros x Hx. apply in_zrange in Hx. assert (Ix : in_tiles A x k) by (apply J; lia).
      sizes A A' x k PA Ix. sizes A A' k k PA Ik. rewrite (Z.min_comm (tsz nb (d_n A) k)).
      apply (GU PlasmaRight PlasmaConjTrans); try assumption; try lia.
      change (PlasmaRight =? PlasmaLeft) with false. cbv iota. lia.
    - apply Forall2_flat_in. intros q Hq. apply in_zrange in Hq. assert (Iq : in_tiles A k q) by (apply J; lia).
      assert (Qb : q * nb < d_n A) by (apply (cnt_n A q D); lia).
      destruct (HTin k q ltac:(lia) ltac:(lia) ltac:(lia)) as [IT3 IT4].
      pose proof (tsz_full (d_n A) k q ltac:(lia) Qb) as F.
      constructor.
      + sizes A A' k q PA Iq. sizes A A' k k PA Ik. apply (GS lg I); try assumption; try lia.
      + apply Forall2_map_in. intros x Hx. apply in_zrange in Hx. assert (Ix : in_tiles A x k) by (apply J; lia). assert (Ixq : in_tiles A x q) by (apply J; lia).
        sizes A A' x q PA Ixq. sizes A A' k k PA Ik. rewrite (sq_nb _ _ _ D), (sq_mb _ _ _ D').
        apply (GM PlasmaRight PlasmaConjTrans); try assumption; try lia;
          change (PlasmaRight =? PlasmaLeft) with false; cbv iota; lia.
  Qed.

  Variables (B B' : desc) (bB : Z).
  Hypothesis PB : paired nb B B'.
  Hypothesis HEB : In (bB, homeD B (in_tiles B)) env.
  Hypothesis NB : bA <> bB /\ bB <> bT.

  Lemma unmlq_okp : forall side trans, side = PlasmaLeft \/ side = PlasmaRight -> trans = PlasmaNoTrans \/ trans = PlasmaConjTrans ->
    (if side =? PlasmaLeft then d_m B else d_n B) = d_n A ->
    Forall2 (okp (N := N) nb ib T T' bT A A' B B' bA bB env False) (pzunmlq side trans bA A bT T bB B) (pzunmqr (oside side) trans bA A' bT T' bB B').
  Proof.
    intros side trans HS HTr HN.
    destruct (paired_counts A A' PA) as [C1 C2]. destruct (paired_counts B B' PB) as [C3 C4].
    assert (PA' := PA). destruct PA' as (D & D' & E1 & E2). assert (PB' := PB). destruct PB' as (DB & DB' & E3 & E4).
    assert (HAB : (bA = bB /\ A = B /\ A' = B') \/ bA <> bB) by tauto. assert (NT2 : bA <> bT /\ bB <> bT) by tauto.
    assert (J : forall x y, 0 <= x < d_mt A -> 0 <= y < d_nt A -> in_tiles A x y) by (intros; split; assumption).
    assert (JB : forall x y, 0 <= x < d_mt B -> 0 <= y < d_nt B -> in_tiles B x y) by (intros; split; assumption).
    pose proof (okp_unm (N := N) nb ib Hnb Hib T T' bT HT A A' B B' bA bB PA PB HAB NT2 env HEA HEB HET False side trans) as GU.
    pose proof (okp_tsm (N := N) nb ib Hnb Hib T T' bT HT A A' B B' bA bB PA PB HAB NT2 env HEA HEB HET False side trans) as GM.
    rewrite (tk_mb _ _ _ _ _ HT), (tk_mb _ _ _ _ _ HT') in GU, GM.
    assert (KB : forall k, 0 <= k < Z.min (d_mt A) (d_nt A) -> in_tiles A k k /\ k * nb < d_m A /\ k * nb < d_n A /\
      0 <= tsz nb (d_m A) k <= nb /\ 0 <= tsz nb (d_n A) k <= nb /\ in_tiles T k k /\ in_tiles T' k k).
    { intros k Hk. assert (Kb : k * nb < d_m A /\ k * nb < d_n A) by (split; [apply (cnt_m A k D)|apply (cnt_n A k D)]; lia).
      split; [apply J; lia|]. split; [lia|]. split; [lia|]. split; [unfold tsz; lia|]. split; [unfold tsz; lia|]. apply HTin; lia. }
    unfold pzunmlq, pzunmqr. cbv zeta. rewrite C1, C2, C3, C4, (Z.min_comm (d_nt A)). rewrite (tk_mb _ _ _ _ _ HT), (tk_mb _ _ _ _ _ HT').
    destruct HS as [-> | ->]; unfold oside in *; change (PlasmaLeft =? PlasmaLeft) with true in *; change (PlasmaRight =? PlasmaLeft) with false in *; cbv iota in *.
    - assert (LT : d_nt A = d_mt B).
      { pose proof (td_shape _ _ (sq_t _ _ _ D)) as S. pose proof (td_shape _ _ (sq_t _ _ _ DB)) as S'.
        rewrite (nt_aligned_ntl nb A S (sq_nb _ _ _ D)), (mt_aligned_ntl nb B S' (sq_mb _ _ _ DB)), HN. reflexivity. }
      assert (UNM : forall k, 0 <= k < Z.min (d_mt A) (d_nt A) ->
        Forall2 (okp (N := N) nb ib T T' bT A A' B B' bA bB env False)
          (map (fun n => omp_zunmlq PlasmaLeft trans (tile_mview B k) (tile_nview B n) (Z.min (tile_nview A k) (tile_mview A k)) ib
             (tptr bA A k k) (tile_mmain A k) (tptr bT T k k) ib (tptr bB B k n) (tile_mmain B k)) (zrange 0 (d_nt B)))
          (map (fun m => omp_zunmqr PlasmaRight trans (tile_mview B' m) (tile_nview B' k) (Z.min (tile_nview A' k) (tile_mview A' k)) ib
             (tptr bA A' k k) (tile_mmain A' k) (tptr bT T' k k) ib (tptr bB B' m k) (tile_mmain B' m)) (zrange 0 (d_nt B)))).
      { intros k Hk. destruct (KB k Hk) as (K1 & K2 & K3 & K4 & K5 & K6 & K7).
        apply Forall2_map_in. intros x Hx. apply in_zrange in Hx. assert (Ix : in_tiles B k x) by (apply JB; lia).
        sizes B B' k x PB Ix. sizes A A' k k PA K1. rewrite (Z.min_comm (tsz nb (d_n A) k)).
        apply GU; try assumption; try lia. rewrite HN. lia. }
      assert (TSM : forall k m, 0 <= k < Z.min (d_mt A) (d_nt A) -> k < m < d_mt B ->
        Forall2 (okp (N := N) nb ib T T' bT A A' B B' bA bB env False)
          (map (fun n => omp_ztsmlq PlasmaLeft trans (d_mb B) (tile_nview B n) (tile_mview B m) (tile_nview B n) (tile_mview A k) ib
             (tptr bB B k n) (tile_mmain B k) (tptr bB B m n) (tile_mmain B m) (tptr bA A k m) (tile_mmain A k) (tptr bT T k m) ib) (zrange 0 (d_nt B)))
          (map (fun n => omp_ztsmqr PlasmaRight trans (tile_mview B' n) (d_nb B') (tile_mview B' n) (tile_nview B' m) (tile_nview A' k) ib
             (tptr bB B' n k) (tile_mmain B' n) (tptr bB B' n m) (tile_mmain B' n) (tptr bA A' m k) (tile_mmain A' m) (tptr bT T' m k) ib) (zrange 0 (d_nt B)))).
      { intros k q Hk Hq. destruct (KB k Hk) as (K1 & K2 & K3 & K4 & K5 & K6 & K7).
        assert (Qb : q * nb < d_n A) by (apply (cnt_n A q D); lia). destruct (HTin k q ltac:(lia) ltac:(lia) ltac:(lia)) as [IT3 IT4].
        pose proof (tsz_full (d_n A) k q ltac:(lia) Qb) as F.
        apply Forall2_map_in. intros x Hx. apply in_zrange in Hx. assert (Ix : in_tiles B k x) by (apply JB; lia). assert (Iq : in_tiles B q x) by (apply JB; lia).
        assert (Ikq : in_tiles A k q) by (apply J; lia).
        sizes B B' q x PB Iq. sizes A A' k k PA K1. rewrite (sq_mb _ _ _ DB), (sq_nb _ _ _ DB').
        apply GM; try assumption; rewrite ?HN; lia. }
      destruct HTr as [-> | ->].
      + change (PlasmaNoTrans =? PlasmaNoTrans) with true. change (PlasmaNoTrans =? PlasmaConjTrans) with false. cbv iota.
        apply Forall2_flat_in. intros k Hk. apply in_zrange in Hk. apply Forall2_app; [apply UNM; assumption|].
        apply Forall2_flat_in. intros q Hq. apply in_zrange in Hq. apply TSM; [assumption|lia].
      + change (PlasmaConjTrans =? PlasmaNoTrans) with false. change (PlasmaConjTrans =? PlasmaConjTrans) with true. cbv iota.
        apply Forall2_flat_in. intros k Hk. apply in_rev, in_zrange in Hk. apply Forall2_app; [|apply UNM; assumption].
        apply Forall2_flat_in. intros q Hq. apply in_rev, in_zrange in Hq. apply TSM; [assumption|lia].
    - assert (LT : d_nt A = d_nt B).
      { pose proof (td_shape _ _ (sq_t _ _ _ D)) as S. pose proof (td_shape _ _ (sq_t _ _ _ DB)) as S'.
        rewrite (nt_aligned_ntl nb A S (sq_nb _ _ _ D)), (nt_aligned_ntl nb B S' (sq_nb _ _ _ DB)), HN. reflexivity. }
      assert (UNM : forall k, 0 <= k < Z.min (d_mt A) (d_nt A) ->
        Forall2 (okp (N := N) nb ib T T' bT A A' B B' bA bB env False)
          (map (fun n => omp_zunmlq PlasmaRight trans (tile_mview B n) (tile_nview B k) (Z.min (tile_nview A k) (tile_mview A k)) ib
             (tptr bA A k k) (tile_mmain A k) (tptr bT T k k) ib (tptr bB B n k) (tile_mmain B n)) (zrange 0 (d_mt B)))
          (map (fun m => omp_zunmqr PlasmaLeft trans (tile_mview B' k) (tile_nview B' m) (Z.min (tile_nview A' k) (tile_mview A' k)) ib
             (tptr bA A' k k) (tile_mmain A' k) (tptr bT T' k k) ib (tptr bB B' k m) (tile_mmain B' k)) (zrange 0 (d_mt B)))).
      { intros k Hk. destruct (KB k Hk) as (K1 & K2 & K3 & K4 & K5 & K6 & K7).
        apply Forall2_map_in. intros x Hx. apply in_zrange in Hx. assert (Ix : in_tiles B x k) by (apply JB; lia).
        sizes B B' x k PB Ix. sizes A A' k k PA K1. rewrite (Z.min_comm (tsz nb (d_n A) k)).
        apply GU; try assumption; try lia. rewrite HN. lia. }
      assert (TSM : forall k m, 0 <= k < Z.min (d_mt A) (d_nt A) -> k < m < d_nt B ->
        Forall2 (okp (N := N) nb ib T T' bT A A' B B' bA bB env False)
          (map (fun n => omp_ztsmlq PlasmaRight trans (tile_mview B n) (d_nb B) (tile_mview B n) (tile_nview B m) (tile_mview A k) ib
             (tptr bB B n k) (tile_mmain B n) (tptr bB B n m) (tile_mmain B n) (tptr bA A k m) (tile_mmain A k) (tptr bT T k m) ib) (zrange 0 (d_mt B)))
          (map (fun n => omp_ztsmqr PlasmaLeft trans (d_mb B') (tile_nview B' n) (tile_mview B' m) (tile_nview B' n) (tile_nview A' k) ib
             (tptr bB B' k n) (tile_mmain B' k) (tptr bB B' m n) (tile_mmain B' m) (tptr bA A' m k) (tile_mmain A' m) (tptr bT T' m k) ib) (zrange 0 (d_mt B)))).
      { intros k q Hk Hq. destruct (KB k Hk) as (K1 & K2 & K3 & K4 & K5 & K6 & K7).
        assert (Qb : q * nb < d_n A) by (apply (cnt_n A q D); lia). destruct (HTin k q ltac:(lia) ltac:(lia) ltac:(lia)) as [IT3 IT4].
        pose proof (tsz_full (d_n A) k q ltac:(lia) Qb) as F.
        apply Forall2_map_in. intros x Hx. apply in_zrange in Hx. assert (Ix : in_tiles B x k) by (apply JB; lia). assert (Iq : in_tiles B x q) by (apply JB; lia).
        assert (Ikq : in_tiles A k q) by (apply J; lia).
        sizes B B' x q PB Iq. sizes A A' k k PA K1. rewrite (sq_nb _ _ _ DB), (sq_mb _ _ _ DB').
        apply GM; try assumption; rewrite ?HN; lia. }
      destruct HTr as [-> | ->].
      + change (PlasmaNoTrans =? PlasmaNoTrans) with true. change (PlasmaNoTrans =? PlasmaConjTrans) with false. cbv iota.
        apply Forall2_flat_in. intros k Hk. apply in_rev, in_zrange in Hk. apply Forall2_app; [|apply UNM; assumption].
        apply Forall2_flat_in. intros q Hq. apply in_rev, in_zrange in Hq. apply TSM; [assumption|lia].
      + change (PlasmaConjTrans =? PlasmaNoTrans) with false. change (PlasmaConjTrans =? PlasmaConjTrans) with true. cbv iota.
        apply Forall2_flat_in. intros k Hk. apply in_zrange in Hk. apply Forall2_app; [apply UNM; assumption|].
        apply Forall2_flat_in. intros q Hq. apply in_zrange in Hq. apply TSM; [assumption|lia].
  Qed.
End Lists.

Section Run.
  Context {N : numbers}.

  Lemma pres_run : forall nb ib T T' bT A A' B B' bA bB env WT ks ks',
    Forall2 (okp (N := N) nb ib T T' bT A A' B B' bA bB env WT) ks ks' ->
    forall M M', R nb ib T T' bT A A' B B' bA bB M M' -> R nb ib T T' bT A A' B B' bA bB (krun ks M) (krun ks' M').
  Proof.
    intros nb ib T T' bT A A' B B' bA bB env WT ks ks' H. induction H as [|t t' ks ks' H1 H2 IH]; intros M M' HR; [exact HR|].
    apply IH. apply H1. exact HR.
  Qed.

  Lemma okp_all : forall nb ib T T' bT A A' B B' bA bB env WT ks ks',
    Forall2 (okp (N := N) nb ib T T' bT A A' B B' bA bB env WT) ks ks' ->
    Forall (fun t => kgood t /\ kdecl (home_env env) t) ks /\
    (forall M l, fst l <> bB -> ~ (WT /\ fst l = bT) -> krun ks M l = M l).
  Proof.
    intros nb ib T T' bT A A' B B' bA bB env WT ks ks' H.
    assert (X : Forall (fun t => kgood t /\ kdecl (home_env env) t) ks).
    { induction H as [|t t' ks ks' H1 H2 IH]; constructor; [apply H1|exact IH]. }
    split; [exact X|]. intros M l L1 L2. apply krun_frame.
    - eapply Forall_impl; [|exact X]. intros t [G _]. apply (kg_sound _ G).
    - intros (t & Ht & W). clear X. induction H as [|t0 t' ks ks' H1 H2 IH]; [destruct Ht|].
      destruct Ht as [<-|Ht]; [|apply IH; assumption]. apply H1 in W. tauto.
  Qed.
End Run.
