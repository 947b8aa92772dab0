From Coq Require Import ZArith List Bool Lia.
From Verif Require Import Base NumModel NumProofs TaskModel TaskSpec TaskProofs DescModel DescSpec
  DescProofs MatModel MatSpec MatProofs LayoutModel.
Import ListNotations.
Open Scope Z_scope.

(* ------------------------------------------------------------------ *)
(* nested loops as one list of index pairs                               *)

Definition pairs (ms : list Z) (ns : Z -> list Z) : list (Z * Z) :=
  flat_map (fun m => map (fun n => (m, n)) (ns m)) ms.

Lemma in_pairs : forall ms ns m n, In (m, n) (pairs ms ns) <-> In m ms /\ In n (ns m).
Proof.
  intros ms ns m n. unfold pairs. rewrite in_flat_map. split.
  - intros (x & Hx & H). apply in_map_iff in H. destruct H as (y & E & Hy). 
    injection E as -> ->. auto.
  - intros [H1 H2]. exists m. split; auto. apply in_map_iff. eauto.
Qed.

Lemma NoDup_map_inj : forall A B (f : A -> B) l, (forall x y, f x = f y -> x = y) ->
  NoDup l -> NoDup (map f l).
Proof.
  intros A B f l Hf H. induction H as [|x l N H IH]; cbn; constructor; auto.
  intro I. apply in_map_iff in I. destruct I as (y & E & Hy). apply Hf in E. subst. contradiction.
Qed.

Lemma NoDup_app_intro : forall A (l l' : list A), NoDup l -> NoDup l' ->
  (forall x, In x l -> ~ In x l') -> NoDup (l ++ l').
Proof.
  intros A l l' H H' HD. induction H as [|x l N H IH]; cbn; auto. constructor.
  - rewrite in_app_iff. intros [I|I]; [contradiction|]. apply (HD x); [left; reflexivity|assumption].
  - apply IH. intros y Hy. apply HD. right; assumption.
Qed.

Lemma NoDup_pairs : forall ms ns, NoDup ms -> (forall m, In m ms -> NoDup (ns m)) -> NoDup (pairs ms ns).
Proof.
  intros ms ns H HN. induction H as [|m ms N H IH]; cbn; [constructor|].
  apply NoDup_app_intro.
  - apply NoDup_map_inj; [congruence|]. apply HN. left; reflexivity.
  - apply IH. intros; apply HN; right; assumption.
  - intros [x y] Hx Hy. apply in_map_iff in Hx. destruct Hx as (z & E & _). injection E as <- <-.
    fold (pairs ms ns) in Hy. apply in_pairs in Hy. tauto.
Qed.

Lemma flat_map_pairs : forall B (g : Z -> Z -> list B) ms ns,
  flat_map (fun m => flat_map (fun n => g m n) (ns m)) ms
  = flat_map (fun mn => g (fst mn) (snd mn)) (pairs ms ns).
Proof.
  intros B g ms ns. unfold pairs. induction ms as [|m ms IH]; cbn; [reflexivity|].
  rewrite flat_map_app, <- IH. f_equal.
  generalize (ns m). induction l as [|n l IHl]; cbn; [reflexivity|]. f_equal. assumption.
Qed.

(* ------------------------------------------------------------------ *)
(* descriptors whose corner is on a tile boundary                        *)

Lemma cp_y2_mview : forall A m, shape_ok A -> 0 <= m < d_mt A -> cp_y2 A m = tile_mview A m.
Proof.
  intros A m H Hm. destruct H. unfold cp_y2, tile_mview.
  destruct (Z.eqb_spec m (d_mt A - 1)); destruct (Z.ltb_spec m (d_mt A - 1)); try lia.
  set (x := d_i A + d_m A). destruct (div_mod_pos x (d_mb A) go_mb) as [E R].
  destruct (Z.eqb_spec (x mod d_mb A) 0).
  - replace ((x - 1) mod d_mb A) with (d_mb A - 1); [lia|].
    symmetry. apply mod_eq with (x / d_mb A - 1); nia.
  - replace ((x - 1) mod d_mb A) with (x mod d_mb A - 1); [lia|].
    symmetry. apply mod_eq with (x / d_mb A); nia.
Qed.

Lemma cp_x2_nview : forall A m, shape_ok A -> 0 <= m < d_nt A -> cp_x2 A m = tile_nview A m.
Proof.
  intros A m H Hm. destruct H. unfold cp_x2, tile_nview.
  destruct (Z.eqb_spec m (d_nt A - 1)); destruct (Z.ltb_spec m (d_nt A - 1)); try lia.
  set (x := d_j A + d_n A). destruct (div_mod_pos x (d_nb A) go_nb) as [E R].
  destruct (Z.eqb_spec (x mod d_nb A) 0).
  - replace ((x - 1) mod d_nb A) with (d_nb A - 1); [lia|].
    symmetry. apply mod_eq with (x / d_nb A - 1); nia.
  - replace ((x - 1) mod d_nb A) with (x mod d_nb A - 1); [lia|].
    symmetry. apply mod_eq with (x / d_nb A); nia.
Qed.

(* the user pointer that corresponds to tile (m,n) *)
Definition uptr (pA : loc) (lda : Z) (A : desc) (m n : Z) : loc :=
  (fst pA, snd pA + m * d_mb A + n * d_nb A * lda).

Section Copy.
  Context {V : Type}.
  Variables (A : desc) (S : Z -> Z -> Prop) (b : Z) (pA : loc) (lda : Z).
  Hypothesis HT : tiled A S.
  Let SH := td_shape A S HT.

  Lemma cp_x1_0 : forall n, cp_x1 A n = 0.
  Proof. intros. unfold cp_x1. rewrite (go_ja A SH). destruct (_ =? _); reflexivity. Qed.
  Lemma cp_y1_0 : forall n, cp_y1 A n = 0.
  Proof. intros. unfold cp_y1. rewrite (go_ia A SH). destruct (_ =? _); reflexivity. Qed.

  Lemma cp_user_eq : forall m n, cp_user pA lda A m n = uptr pA lda A m n.
  Proof. intros. unfold cp_user, uptr. rewrite cp_x1_0, cp_y1_0. f_equal. lia. Qed.
  Lemma cp_tile_eq : forall m n, cp_tile b A m n = tptr b A m n.
  Proof. intros. unfold cp_tile, tptr. rewrite cp_x1_0, cp_y1_0. f_equal. lia. Qed.

  Lemma copy_in_eq : forall m n, S m n -> @copy_in V pA lda b A m n =
    omp_zlacpy PlasmaGeneral (tile_mview A m) (tile_nview A n) (uptr pA lda A m n) lda
      (tptr b A m n) (tile_mmain A m).
  Proof.
    intros m n HS. destruct (td_in A S HT m n HS) as [Hm Hn]. unfold copy_in.
    rewrite cp_user_eq, cp_tile_eq, cp_x1_0, cp_y1_0, !Z.sub_0_r.
    rewrite cp_y2_mview, cp_x2_nview by assumption. reflexivity.
  Qed.

  Lemma copy_out_eq : forall m n, S m n -> @copy_out V b A pA lda m n =
    omp_zlacpy PlasmaGeneral (tile_mview A m) (tile_nview A n)
      (tptr b A m n) (tile_mmain A m) (uptr pA lda A m n) lda.
  Proof.
    intros m n HS. destruct (td_in A S HT m n HS) as [Hm Hn]. unfold copy_out.
    rewrite cp_user_eq, cp_tile_eq, cp_x1_0, cp_y1_0, !Z.sub_0_r.
    rewrite cp_y2_mview, cp_x2_nview by assumption. reflexivity.
  Qed.

  Lemma omp_zlacpy_ksound : forall uplo m n X ldx Y ldy, m <= ldy ->
    ksound (@omp_zlacpy V uplo m n X ldx Y ldy).
  Proof.
    intros. apply mset_ksound; auto.
    intros M M' i j Hi Hj HP HX. apply HX. exists i, j. auto.
  Qed.

  Lemma omp_zlacpy_kdecw : forall uplo m n X ldx Y ldy, m <= ldy ->
    kdecw (@omp_zlacpy V uplo m n X ldx Y ldy).
  Proof. intros uplo m n X ldx Y ldy H l. cbn. destruct (reg_dec Y ldy m n (uplo_sel uplo) l H); auto. Qed.

  Variable idx : list (Z * Z).
  Hypothesis Hidx : forall m n, In (m, n) idx <-> S m n.
  Hypothesis HND : NoDup idx.

  (* a position of the matrix lies in exactly one tile *)
  Lemma pos_split : forall i j, 0 <= i < d_m A -> 0 <= j < d_n A ->
    i = (i / d_mb A) * d_mb A + i mod d_mb A /\ j = (j / d_nb A) * d_nb A + j mod d_nb A /\
    0 <= i mod d_mb A < tile_mview A (i / d_mb A) /\ 0 <= j mod d_nb A < tile_nview A (j / d_nb A).
  Proof.
    intros i j Hi Hj. destruct (row_tile A i SH Hi). destruct (col_tile A j SH Hj).
    destruct (div_mod_pos i (d_mb A) (go_mb A SH)). destruct (div_mod_pos j (d_nb A) (go_nb A SH)).
    repeat split; lia.
  Qed.

  Lemma el_loc : forall i j, (b, elem_off A i j)
    = at_ (tptr b A (i / d_mb A) (j / d_nb A)) (tile_mmain A (i / d_mb A)) (i mod d_mb A) (j mod d_nb A).
  Proof. reflexivity. Qed.

  Lemma ul_loc : forall i j, 
    (fst pA, snd pA + i + j * lda)
    = at_ (uptr pA lda A (i / d_mb A) (j / d_nb A)) lda (i mod d_mb A) (j mod d_nb A).
  Proof.
    intros i j. destruct (div_mod_pos i (d_mb A) (go_mb A SH)) as [E _].
    destruct (div_mod_pos j (d_nb A) (go_nb A SH)) as [E' _].
    unfold at_, uptr. cbn [fst snd]. f_equal. rewrite E at 1. rewrite E' at 1. ring.
  Qed.

  Definition copy_in_all : list (ktask V) :=
    flat_map (fun mn => [copy_in pA lda b A (fst mn) (snd mn)]) idx.
  Definition copy_out_all : list (ktask V) :=
    flat_map (fun mn => [copy_out b A pA lda (fst mn) (snd mn)]) idx.

  Lemma copy_in_sound : fst pA <> b -> Forall ksound copy_in_all.
  Proof.
    intros HB. apply Forall_forall. intros k Hk. apply in_flat_map in Hk.
    destruct Hk as ([m n] & Hmn & [<-|[]]). apply Hidx in Hmn. cbn [fst snd].
    rewrite copy_in_eq by assumption. apply omp_zlacpy_ksound. apply (td_ld A S HT m n Hmn).
  Qed.

  Lemma copy_in_frame : forall M l, fst pA <> b -> fst l <> b -> krun copy_in_all M l = M l.
  Proof.
    intros M l HB H. apply krun_frame; [apply copy_in_sound; assumption|].
    intros (k & Hk & W). apply in_flat_map in Hk. destruct Hk as ([m n] & Hmn & [<-|[]]).
    apply Hidx in Hmn. cbn [fst snd] in W. rewrite copy_in_eq in W by assumption. cbn in W.
    apply reg_block in W. cbn in W. congruence.
  Qed.

  Lemma copy_in_spec : forall M i j, fst pA <> b -> 0 <= i < d_m A -> 0 <= j < d_n A ->
    S (i / d_mb A) (j / d_nb A) ->
    el (krun copy_in_all M) b A i j = ul M pA lda i j.
  Proof.
    intros M i j HB Hi Hj HS. destruct (pos_split i j Hi Hj) as (E1 & E2 & R1 & R2).
    unfold el, copy_in_all.
    rewrite (krun_groups V _ (fun mn => [copy_in pA lda b A (fst mn) (snd mn)]) idx M
               (i / d_mb A, j / d_nb A)); cbn [fst snd].
    - rewrite copy_in_eq by assumption. cbn. unfold core_zlacpy. rewrite el_loc.
      rewrite mset_in; try lia. 2: apply (td_ld A S HT _ _ HS).
      cbn. unfold rd, ul. rewrite ul_loc. reflexivity.
    - intros [m n] Hmn. apply Hidx in Hmn. cbn [fst snd]. rewrite copy_in_eq by assumption.
      assert (L := td_ld A S HT m n Hmn). split; (constructor; [|constructor]).
      + apply omp_zlacpy_ksound; auto.
      + apply omp_zlacpy_kdecw; auto.
    - assumption.
    - intros [m n] [m' n'] x H1 H2 Hne W. apply Hidx in H1, H2. cbn [fst snd] in *.
      destruct W as (k & [<-|[]] & W). rewrite copy_in_eq in W by assumption.
      split; intros (k & [<-|[]] & W'); rewrite copy_in_eq in W' by assumption; cbn in W, W'.
      + destruct (reg_tile_apart A S b HT m' n' m n _ _ x H2 H1 W W'). congruence.
      + apply reg_block in W, W'. cbn in W, W'. congruence.
    - apply Hidx; assumption.
    - left. eexists. split; [left; reflexivity|]. rewrite copy_in_eq by assumption. cbn.
      exists (i mod d_mb A), (j mod d_nb A). repeat split; try lia.
  Qed.

  (* writing back *)
  Hypothesis Hlda : d_m A <= lda.

  Lemma user_tile_inj : forall m n m' n' r c r' c', S m n -> S m' n' ->
    0 <= r < tile_mview A m -> 0 <= c < tile_nview A n ->
    0 <= r' < tile_mview A m' -> 0 <= c' < tile_nview A n' ->
    at_ (uptr pA lda A m n) lda r c = at_ (uptr pA lda A m' n') lda r' c' ->
    m = m' /\ n = n' /\ r = r' /\ c = c'.
  Proof.
    intros m n m' n' r c r' c' HS HS' Hr Hc Hr' Hc' E.
    destruct (td_in A S HT m n HS) as [Hm Hn]. destruct (td_in A S HT m' n' HS') as [Hm' Hn'].
    destruct (tile_row A m r SH Hm Hr) as (R1 & R2 & R3).
    destruct (tile_row A m' r' SH Hm' Hr') as (R1' & R2' & R3').
    destruct (tile_col A n c SH Hn Hc) as (C1 & C2 & C3).
    destruct (tile_col A n' c' SH Hn' Hc') as (C1' & C2' & C3').
    unfold at_, uptr in E. cbn [fst snd] in E. injection E as E.
    assert (E2 : (m * d_mb A + r) + (n * d_nb A + c) * lda = (m' * d_mb A + r') + (n' * d_nb A + c') * lda) by lia.
    assert (Q : n * d_nb A + c = n' * d_nb A + c') by nia.
    assert (Q2 : m * d_mb A + r = m' * d_mb A + r') by nia.
    rewrite Q in C2, C3. rewrite Q2 in R2, R3. repeat split; congruence.
  Qed.

  Lemma tile_m_le_lda : forall m n, S m n -> tile_mview A m <= lda.
  Proof.
    intros m n HS. destruct (td_in A S HT m n HS) as [Hm Hn].
    destruct (mview_spec A m SH Hm) as [E R].
    destruct (tile_row A m (tile_mview A m - 1) SH Hm) as (R1 & _); [lia|].
    assert (0 <= m * d_mb A) by (pose proof (go_mb A SH); nia). lia.
  Qed.

  Lemma copy_out_sound : Forall ksound copy_out_all.
  Proof.
    apply Forall_forall. intros k Hk. apply in_flat_map in Hk.
    destruct Hk as ([m n] & Hmn & [<-|[]]). apply Hidx in Hmn. cbn [fst snd].
    rewrite copy_out_eq by assumption. apply omp_zlacpy_ksound. apply (tile_m_le_lda m n Hmn).
  Qed.

  Lemma copy_out_frame : forall M l,
    (forall i j, 0 <= i < d_m A -> 0 <= j < d_n A -> S (i / d_mb A) (j / d_nb A) ->
       l <> (fst pA, snd pA + i + j * lda)) ->
    krun copy_out_all M l = M l.
  Proof.
    intros M l H. apply krun_frame; [apply copy_out_sound; assumption|].
    intros (k & Hk & W). apply in_flat_map in Hk. destruct Hk as ([m n] & Hmn & [<-|[]]).
    apply Hidx in Hmn. cbn [fst snd] in W. rewrite copy_out_eq in W by assumption. cbn in W.
    destruct W as (r & c & Hr & Hc & _ & E).
    destruct (td_in A S HT m n Hmn) as [Hm Hn].
    destruct (tile_row A m r SH Hm Hr) as (R1 & R2 & R3).
    destruct (tile_col A n c SH Hn Hc) as (C1 & C2 & C3).
    apply (H (m * d_mb A + r) (n * d_nb A + c)); auto.
    - rewrite R2, C2. assumption.
    - rewrite E, ul_loc, R2, R3, C2, C3. reflexivity.
  Qed.

  Lemma copy_out_spec : forall M i j, fst pA <> b -> 0 <= i < d_m A -> 0 <= j < d_n A ->
    S (i / d_mb A) (j / d_nb A) ->
    ul (krun copy_out_all M) pA lda i j = el M b A i j.
  Proof.
    intros M i j HB Hi Hj HS. destruct (pos_split i j Hi Hj) as (E1 & E2 & R1 & R2).
    unfold ul, copy_out_all.
    rewrite (krun_groups V _ (fun mn => [copy_out b A pA lda (fst mn) (snd mn)]) idx M
               (i / d_mb A, j / d_nb A)); cbn [fst snd].
    - rewrite copy_out_eq by assumption. cbn. unfold core_zlacpy. rewrite ul_loc.
      rewrite mset_in; try lia. 2: apply (tile_m_le_lda _ _ HS).
      reflexivity.
    - intros [m n] Hmn. apply Hidx in Hmn. cbn [fst snd]. rewrite copy_out_eq by assumption.
      assert (L := tile_m_le_lda m n Hmn). split; (constructor; [|constructor]).
      + apply omp_zlacpy_ksound; auto.
      + apply omp_zlacpy_kdecw; auto.
    - assumption.
    - intros [m n] [m' n'] x H1 H2 Hne W. apply Hidx in H1, H2. cbn [fst snd] in *.
      destruct W as (k & [<-|[]] & W). rewrite copy_out_eq in W by assumption.
      split; intros (k & [<-|[]] & W'); rewrite copy_out_eq in W' by assumption; cbn in W, W'.
      + destruct W as (r & c & Hr & Hc & _ & E). destruct W' as (r' & c' & Hr' & Hc' & _ & E').
        subst x. destruct (user_tile_inj m' n' m n r c r' c') as (-> & -> & _); auto.
      + apply reg_block in W, W'. cbn in W, W'. congruence.
    - apply Hidx; assumption.
    - left. eexists. split; [left; reflexivity|]. rewrite copy_out_eq by assumption. cbn.
      exists (i mod d_mb A), (j mod d_nb A). rewrite ul_loc. repeat split; try lia.
  Qed.

  (* the home of a location of the user's matrix is the user pointer of its tile *)
  Definition homeU (o a : Z) : Prop :=
    exists m n r c, S m n /\ 0 <= r < tile_mview A m /\ 0 <= c < tile_nview A n /\
      o = snd pA + (m * d_mb A + r) + (n * d_nb A + c) * lda /\
      a = snd pA + m * d_mb A + n * d_nb A * lda.

  Lemma homeU_functional : functionalZ homeU.
  Proof.
    intros o a a' (m & n & r & c & H1 & H2 & H3 & H4 & H5) (m' & n' & r' & c' & H1' & H2' & H3' & H4' & H5').
    destruct (user_tile_inj m n m' n' r c r' c') as (-> & -> & _); auto.
    - unfold at_, uptr. cbn [fst snd]. f_equal. lia.
    - congruence.
  Qed.
End Copy.

(* ------------------------------------------------------------------ *)
(* homes of tiles and of user blocks in an environment                   *)

Section Homes.
  Variable env : list (Z * (Z -> Z -> Prop)).

  Lemma home_tile : forall A S b m n P l, In (b, homeD A S) env -> S m n ->
    reg (tptr b A m n) (tile_mmain A m) (tile_mview A m) (tile_nview A n) P l ->
    home_env env l (tptr b A m n).
  Proof.
    intros A S b m n P l HE HS (r & c & Hr & Hc & _ & ->). split; [reflexivity|].
    exists (homeD A S). cbn [fst at_ tptr snd]. split; [assumption|].
    exists m, n, r, c. repeat split; auto; lia.
  Qed.

  Lemma home_user : forall A S pA lda m n P l, In (fst pA, homeU A S pA lda) env -> S m n ->
    reg (uptr pA lda A m n) lda (tile_mview A m) (tile_nview A n) P l ->
    home_env env l (uptr pA lda A m n).
  Proof.
    intros A S pA lda m n P l HE HS (r & c & Hr & Hc & _ & ->). split; [reflexivity|].
    exists (homeU A S pA lda). cbn [fst at_ uptr snd]. split; [assumption|].
    exists m, n, r, c. repeat split; auto; lia.
  Qed.

  Lemma no_home : forall p ld m n P l, ~ In (fst p) (map fst env) ->
    reg p ld m n P l -> ~ exists a, home_env env l a.
  Proof.
    intros p ld m n P l HN HR [a (_ & h & HI & _)]. apply HN. apply reg_block in HR.
    rewrite <- HR. apply in_map_iff. exists (fst l, h). auto.
  Qed.
End Homes.

Lemma no_home_block : forall env l, ~ In (fst l) (map fst env) -> ~ exists a, home_env env l a.
Proof.
  intros env l HN [a (_ & h & HI & _)]. apply HN. apply in_map_iff. exists (fst l, h). auto.
Qed.

Lemma in_user_block : forall p ld m n l, in_user p ld m n l -> fst l = fst p.
Proof. intros p ld m n l (i & j & _ & _ & ->). reflexivity. Qed.

Lemma kdecl_intro : forall V home (k : ktask V),
  (forall l, k_reads k l -> (exists d, In d (k_deps k) /\ home l (dep_addr d)) \/ ~ (exists a, home l a)) ->
  (forall l, k_writes k l -> exists d, In d (k_deps k) /\ home l (dep_addr d) /\ dep_type d <> DepIn) ->
  kdecl home k.
Proof. intros V home k H1 H2. split; auto. intros l HR HA. destruct (H1 l HR); [assumption|contradiction]. Qed.

Section CopyDecl.
  Context {V : Type}.
  Variable env : list (Z * (Z -> Z -> Prop)).
  Variables (A : desc) (S : Z -> Z -> Prop) (b : Z) (pA : loc) (lda : Z).
  Hypothesis HT : tiled A S.
  Hypothesis HE : In (b, homeD A S) env.
  Variable idx : list (Z * Z).
  Hypothesis Hidx : forall m n, In (m, n) idx <-> S m n.

  Lemma copy_in_kdecl : 
    (forall l, in_user pA lda (d_m A) (d_n A) l -> ~ exists a, home_env env l a)
      \/ In (fst pA, homeU A S pA lda) env ->
    Forall (kdecl (home_env env)) (@copy_in_all V A b pA lda idx).
  Proof.
    intros HU. apply Forall_forall. intros k Hk. apply in_flat_map in Hk.
    destruct Hk as ([m n] & Hmn & [<-|[]]). apply Hidx in Hmn. cbn [fst snd].
    rewrite copy_in_eq with (S := S) by assumption.
    apply kdecl_intro; cbn; intros l H.
    - destruct HU as [HU|HU].
      + right. apply HU. destruct H as (r & c & Hr & Hc & _ & ->).
        destruct (td_in A S HT m n Hmn) as [Hm Hn].
        destruct (tile_row A m r (td_shape A S HT) Hm Hr) as (R1 & R2 & R3).
        destruct (tile_col A n c (td_shape A S HT) Hn Hc) as (C1 & C2 & C3).
        exists (m * d_mb A + r), (n * d_nb A + c). split; [assumption|]. split; [assumption|].
        unfold at_, uptr. cbn [fst snd]. f_equal. ring.
      + left. eexists. split; [left; reflexivity|]. cbn. eapply home_user; eauto.
    - eexists. split; [right; left; reflexivity|]. split; [|discriminate]. cbn. eapply home_tile; eauto.
  Qed.

  Lemma copy_out_kdecl : In (fst pA, homeU A S pA lda) env ->
    Forall (kdecl (home_env env)) (@copy_out_all V A b pA lda idx).
  Proof.
    intros HU. apply Forall_forall. intros k Hk. apply in_flat_map in Hk.
    destruct Hk as ([m n] & Hmn & [<-|[]]). apply Hidx in Hmn. cbn [fst snd].
    rewrite copy_out_eq with (S := S) by assumption.
    apply kdecl_intro; cbn; intros l H.
    - left. eexists. split; [left; reflexivity|]. cbn. eapply home_tile; eauto.
    - eexists. split; [right; left; reflexivity|]. split; [|discriminate]. cbn. eapply home_user; eauto.
  Qed.
End CopyDecl.

(* ------------------------------------------------------------------ *)
(* the two translation loops                                             *)

Definition idx_all (A : desc) : list (Z * Z) := pairs (zrange 0 (d_mt A)) (fun _ => zrange 0 (d_nt A)).
Definition idx_tri (A : desc) : list (Z * Z) :=
  pairs (zrange 0 (d_mt A)) (fun m => zrange (tr_start A m) (tr_end A m)).

Lemma idx_all_in : forall A m n, In (m, n) (idx_all A) <-> in_tiles A m n.
Proof. intros. unfold idx_all, in_tiles. rewrite in_pairs, !in_zrange. tauto. Qed.
Lemma idx_all_NoDup : forall A, NoDup (idx_all A).
Proof. intros. apply NoDup_pairs; [|intros]; apply NoDup_zrange. Qed.

(* tiles of the stored triangle *)
Definition in_tri (A : desc) (m n : Z) : Prop :=
  in_tiles A m n /\ (if d_type A =? PlasmaUpper then m <= n else n <= m).

Lemma idx_tri_in : forall A m n, d_mt A = d_nt A -> In (m, n) (idx_tri A) <-> in_tri A m n.
Proof.
  intros A m n H. unfold idx_tri, in_tri, in_tiles, tr_start, tr_end. rewrite in_pairs, !in_zrange.
  destruct (d_type A =? PlasmaUpper); lia.
Qed.
Lemma idx_tri_NoDup : forall A, NoDup (idx_tri A).
Proof. intros. apply NoDup_pairs; [|intros]; apply NoDup_zrange. Qed.

Lemma pzge2desc_eq : forall V pA lda b A, @pzge2desc V pA lda b A = copy_in_all A b pA lda (idx_all A).
Proof. intros. unfold pzge2desc, copy_in_all, idx_all. rewrite flat_map_pairs. reflexivity. Qed.
Lemma pzdesc2ge_eq : forall V pA lda b A, @pzdesc2ge V b A pA lda = copy_out_all A b pA lda (idx_all A).
Proof. intros. unfold pzdesc2ge, copy_out_all, idx_all. rewrite flat_map_pairs. reflexivity. Qed.
Lemma pztr2desc_eq : forall V pA lda b A, @pztr2desc V pA lda b A = copy_in_all A b pA lda (idx_tri A).
Proof. intros. unfold pztr2desc, copy_in_all, idx_tri. rewrite flat_map_pairs. reflexivity. Qed.
Lemma pzdesc2tr_eq : forall V pA lda b A, @pzdesc2tr V b A pA lda = copy_out_all A b pA lda (idx_tri A).
Proof. intros. unfold pzdesc2tr, copy_out_all, idx_tri. rewrite flat_map_pairs. reflexivity. Qed.
