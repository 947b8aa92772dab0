(* Tasks that fill disjoint parts of a workspace from a tile matrix, and regions in sequence. *)
From Coq Require Import ZArith List Bool Lia.
From Verif Require Import Base NumModel FieldModel TaskModel TaskSpec TaskProofs DescModel DescSpec
  DescProofs MatModel MatSpec MatProofs RegionProofs
  LayoutModel LayoutProofs LayoutProofs2 DriverModel DriverSpec OpProofs OperandProofs GemmProofs
  NormModel NormSpec.
Import ListNotations.
Open Scope Z_scope.

Lemma fill_in : forall V p len (f : Z -> V) M r, 0 <= r < len -> fill p len f M (fst p, snd p + r) = f r.
Proof.
  intros V p len f M r H. unfold fill. cbn [fst snd]. rewrite Z.eqb_refl.
  replace (snd p <=? snd p + r) with true by (symmetry; apply Z.leb_le; lia).
  replace (snd p + r <? snd p + len) with true by (symmetry; apply Z.ltb_lt; lia).
  cbn [andb]. f_equal. lia.
Qed.

Lemma fill_out : forall V p len (f : Z -> V) M l, ~ seg p len l -> fill p len f M l = M l.
Proof.
  intros V p len f M [b x] H. unfold fill. cbn [fst snd].
  destruct (Z.eqb_spec b (fst p)) as [E|]; [|reflexivity].
  destruct (Z.leb_spec (snd p) x); [|reflexivity].
  destruct (Z.ltb_spec x (snd p + len)); [|reflexivity].
  exfalso. apply H. exists (x - snd p). split; [lia|]. f_equal; [assumption|lia].
Qed.

Lemma finite_seg : forall p len, finite_set (seg p len).
Proof.
  intros p len. exists (map (fun r => (fst p, snd p + r)) (zrange 0 len)). intros l. rewrite in_map_iff. split.
  - intros (r & <- & Hr). apply in_zrange in Hr. exists r. auto.
  - intros (r & Hr & ->). exists r. split; [reflexivity|]. apply in_zrange. assumption.
Qed.

Lemma seg_dec : forall p len l, seg p len l \/ ~ seg p len l.
Proof. intros. apply finite_dec, finite_seg. Qed.

Lemma fill_ext : forall V p len (f f' : Z -> V) M M' l, (forall r, 0 <= r < len -> f r = f' r) ->
  (seg p len l \/ M l = M' l) -> fill p len f M l = fill p len f' M' l.
Proof.
  intros V p len f f' M M' l Hf H. destruct (seg_dec p len l) as [(r & Hr & ->)|S].
  - rewrite !fill_in by assumption. auto.
  - rewrite !fill_out by assumption. tauto.
Qed.

(* a kernel that fills one segment *)
Lemma fill_kgood : forall V deps p len (f : mem V -> Z -> V) (R : loc -> Prop), finite_set R ->
  (forall M M' r, 0 <= r < len -> (forall x, R x -> M x = M' x) -> f M r = f M' r) ->
  kgood (mkktask deps (fun M => fill p len (f M) M) R (seg p len)).
Proof.
  intros V deps p len f R HR HF. constructor; cbn; [|assumption|apply finite_seg]. split.
  - cbn. intros M l H. apply fill_out. assumption.
  - cbn. intros M M' l HM [r [Hr ->]]. rewrite !fill_in by assumption. apply HF; assumption.
Qed.

Lemma fill2_kgood : forall V deps p len (f : mem V -> Z -> V) q len' (g : mem V -> Z -> V) (R : loc -> Prop),
  finite_set R ->
  (forall M M' r, 0 <= r < len -> (forall x, R x -> M x = M' x) -> f M r = f M' r) ->
  (forall M M' r, 0 <= r < len' -> (forall x, R x -> M x = M' x) -> g M r = g M' r) ->
  kgood (mkktask deps (fun M => fill q len' (g M) (fill p len (f M) M)) R (fun l => seg p len l \/ seg q len' l)).
Proof.
  intros V deps p len f q len' g R HR HF HG. constructor; cbn; [|assumption|apply finite_or; apply finite_seg]. split.
  - cbn. intros M l H. rewrite !fill_out; tauto.
  - cbn. intros M M' l HM HL. apply fill_ext; [intros r Hr; apply HG; assumption|].
    destruct (seg_dec q len' l) as [S|S]; [left; assumption|right].
    destruct HL as [(r & Hr & ->)|HL]; [|contradiction].
    rewrite !fill_in by assumption. apply HF; assumption.
Qed.

(* ------------------------------------------------------------------ *)

(* tasks that write disjoint parts of block w and read none of it *)
Section Fills.
  Context {V I : Type}.
  Variables (w : Z) (t : I -> ktask V).

  Lemma fills_off : forall L (M : mem V) l, Forall ksound (map t L) ->
    (forall x, In x L -> ~ k_writes (t x) l) -> krun (map t L) M l = M l.
  Proof.
    induction L as [|x L IH]; intros M l HG H; cbn [map krun]; [reflexivity|].
    cbn [map] in HG. inversion HG as [|? ? G1 G2]; subst.
    rewrite IH; [|assumption|intros; apply H; right; assumption].
    apply (proj1 G1). apply H. left; reflexivity.
  Qed.

  Lemma fills_at : forall L (M : mem V) x o, Forall ksound (map t L) -> NoDup L -> In x L ->
    (forall y l, In y L -> k_reads (t y) l -> fst l <> w) ->
    (forall y l, In y L -> k_writes (t y) l -> fst l = w) ->
    k_writes (t x) (w, o) ->
    (forall y, In y L -> k_writes (t y) (w, o) -> y = x) ->
    krun (map t L) M (w, o) = k_fun (t x) M (w, o).
  Proof.
    induction L as [|y L IH]; intros M x o HG HN HI HR HW HX HU; [destruct HI|].
    inversion HN as [|? ? N1 N2]; subst. cbn [map] in HG. inversion HG as [|? ? G1 G2]; subst.
    cbn [map krun]. destruct HI as [->|HI].
    - rewrite fills_off; [reflexivity|assumption|].
      intros y Hy E. apply N1. rewrite <- (HU y (or_intror Hy) E). assumption.
    - rewrite (IH _ x o); auto.
      + assert (GX : ksound (t x)) by (rewrite Forall_forall in G2; apply G2, in_map; assumption).
        apply (proj2 GX); [|assumption].
        intros l Hl. apply (proj1 G1). intros E. apply (HR x l (or_intror HI) Hl). apply (HW y l (or_introl eq_refl) E).
      + intros z l Hz. apply HR. right; assumption.
      + intros z l Hz. apply HW. right; assumption.
      + intros z Hz. apply HU. right; assumption.
  Qed.
End Fills.

(* translation of a dense matrix followed by tasks that fill a workspace *)
Lemma fill_region : forall V nb bA A pA lda w (hW : Z -> Z -> Prop) (comp : list (ktask V)),
  dn nb A -> d_m A <= lda -> fst pA <> bA -> fst pA <> w -> bA <> w -> functionalZ hW ->
  Forall kgood comp ->
  Forall (kdecl (home_env [(bA, homeD A (in_tiles A)); (w, hW)])) comp ->
  forall M, region_ensures (pzge2desc pA lda bA A ++ comp) M
    (fun M' => exists M3,
      (forall i j, 0 <= i < d_m A -> 0 <= j < d_n A -> el M3 bA A i j = ul M pA lda i j) /\
      (forall l, fst l <> bA -> M3 l = M l) /\
      (forall l, M' l = krun comp M3 l)).
Proof.
  intros V nb bA A pA lda w hW comp HA LA H1 H2 H3 HW CG CD M.
  pose proof (ge_opnd_ok nb bA A pA lda HA LA) as [Q1 Q2 Q3 Q4]. cbn in Q1, Q2, Q3, Q4.
  rewrite <- ge_opnd_in. unfold o_in. cbn [o_A o_b o_p o_ld o_idx ge_opnd].
  apply (region_env V [(bA, homeD A (in_tiles A)); (w, hW)]).
  - cbn. constructor; [|constructor; [intros []|constructor]]. intros [E|[]]. congruence.
  - intros b h [E|[E|[]]]; injection E as <- <-; [|assumption]. apply homeD_functional, (sq_t nb _ _ HA).
  - apply Forall_app. split; [|assumption]. eapply copy_in_kgood; eauto using sq_t.
  - apply Forall_app. split; [|assumption]. eapply copy_in_kdecl; eauto using sq_t.
    + left; reflexivity.
    + left. intros l Hl [a (E & h & Hh & _)]. rewrite (in_user_block _ _ _ _ _ Hl) in Hh.
      destruct Hh as [X|[X|[]]]; injection X as X _; congruence.
  - intros M' HM. exists (krun (copy_in_all A bA pA lda (idx_all A)) M). split; [|split].
    + intros i j Hi Hj. eapply copy_in_spec with (S := in_tiles A); eauto using sq_t.
      apply in_tiles_pos; auto. apply (td_shape _ _ (sq_t nb _ _ HA)).
    + intros l Hl. eapply copy_in_frame; eauto using sq_t.
    + intros l. rewrite HM, krun_app. reflexivity.
Qed.

(* one task alone *)
Lemma single_region : forall V (k : ktask V) M (Q : mem V -> Prop), kgood k ->
  (forall M', (forall l, M' l = k_fun k M l) -> Q M') -> region_ensures [k] M Q.
Proof.
  intros V k M Q HG HQ. apply region_intro.
  - constructor; [assumption|constructor].
  - intros l1 a l2 b l3 E. exfalso. apply (f_equal (@length _)) in E.
    rewrite app_length in E. cbn in E. rewrite app_length in E. cbn in E. lia.
  - intros M' HM. apply HQ. exact HM.
Qed.

Lemma phases_mono : forall V (ph : list (list (ktask V))) M (Q Q' : mem V -> Prop),
  (forall M', Q M' -> Q' M') -> phases_ensures ph M Q -> phases_ensures ph M Q'.
Proof.
  intros V ph. induction ph as [|ks ph IH]; intros M Q Q' H HP; cbn in *; [auto|].
  eapply region_mono; [|exact HP]. intros M' HM. eapply IH; eauto.
Qed.

(* one task per job, reading one tile and filling some segments of the workspace *)
Section Jobs.
  Context {V I : Type}.
  Variables (nb bA : Z) (A : desc) (pA : loc) (lda w : Z).
  Variables (t : I -> ktask V) (tm tn : I -> Z) (segs : I -> list (Z * Z)) (L : list I).
  Hypothesis HA : dn nb A.
  Hypothesis LA : d_m A <= lda.
  Hypothesis H1 : fst pA <> bA.
  Hypothesis H2 : fst pA <> w.
  Hypothesis H3 : bA <> w.
  Hypothesis HN : NoDup L.
  Hypothesis HG : forall x, In x L -> kgood (t x).
  Hypothesis HI : forall x, In x L -> in_tiles A (tm x) (tn x).
  Hypothesis HD : forall x, In x L ->
    k_deps (t x) = dep_in (tptr bA A (tm x) (tn x)) :: map (fun s => dep_out (w, fst s)) (segs x).
  Hypothesis HR : forall x l, In x L -> k_reads (t x) l ->
    reg (tptr bA A (tm x) (tn x)) (tile_mmain A (tm x)) (tile_mview A (tm x)) (tile_nview A (tn x)) everywhere l.
  Hypothesis HW : forall x l, In x L -> (k_writes (t x) l <-> exists s, In s (segs x) /\ seg (w, fst s) (snd s) l).
  Hypothesis HX : forall x y s s' r r', In x L -> In y L -> In s (segs x) -> In s' (segs y) ->
    0 <= r < snd s -> 0 <= r' < snd s' -> fst s + r = fst s' + r' -> x = y /\ s = s'.

  Definition job_home (o a : Z) : Prop :=
    exists x s r, In x L /\ In s (segs x) /\ 0 <= r < snd s /\ o = fst s + r /\ a = fst s.

  Lemma job_home_functional : functionalZ job_home.
  Proof.
    intros o a a' (x & s & r & P1 & P2 & P3 & P4 & P5) (y & s' & r' & Q1 & Q2 & Q3 & Q4 & Q5).
    destruct (HX x y s s' r r') as [_ E]; auto; congruence.
  Qed.

  Lemma jobs_kgood : Forall kgood (map t L).
  Proof. apply Forall_forall. intros k Hk. apply in_map_iff in Hk. destruct Hk as (x & <- & Hx). auto. Qed.

  Lemma jobs_kdecl : Forall (kdecl (home_env [(bA, homeD A (in_tiles A)); (w, job_home)])) (map t L).
  Proof.
    apply Forall_forall. intros k Hk. apply in_map_iff in Hk. destruct Hk as (x & <- & Hx).
    apply kdecl_intro; rewrite (HD x Hx).
    - intros l Hl. left. eexists. split; [left; reflexivity|]. cbn [dep_addr dep_in].
      eapply home_tile; [left; reflexivity|apply HI; assumption|apply HR; assumption].
    - intros l Hl. apply HW in Hl; [|assumption]. destruct Hl as (s & Hs & (r & Hr & ->)).
      exists (dep_out (w, fst s)). split; [right; apply (in_map (fun s => dep_out (w, fst s))); assumption|].
      split; [|discriminate]. split; [reflexivity|]. exists job_home. split; [right; left; reflexivity|].
      exists x, s, r. cbn. auto.
  Qed.

  Lemma jobs_region : forall M : mem V, region_ensures (pzge2desc pA lda bA A ++ map t L) M
    (fun M' => exists M3,
      (forall i j, 0 <= i < d_m A -> 0 <= j < d_n A -> el M3 bA A i j = ul M pA lda i j) /\
      (forall l, fst l <> bA -> M3 l = M l) /\
      (forall x s r, In x L -> In s (segs x) -> 0 <= r < snd s ->
         M' (w, fst s + r) = k_fun (t x) M3 (w, fst s + r)) /\
      (forall l, (forall x s, In x L -> In s (segs x) -> ~ seg (w, fst s) (snd s) l) -> M' l = M3 l)).
  Proof.
    intros M.
    assert (KS : Forall ksound (map t L)) by (apply kgood_sound, jobs_kgood).
    eapply region_mono; [|apply (fill_region V nb bA A pA lda w job_home (map t L));
      auto using job_home_functional, jobs_kgood, jobs_kdecl].
    intros M' (M3 & E1 & E2 & E3). exists M3. split; [assumption|]. split; [assumption|]. split.
    - intros x s r Hx Hs Hr. rewrite E3. apply fills_at; auto.
      + intros y l Hy Hl. rewrite (reg_block _ _ _ _ _ _ (HR y l Hy Hl)). exact H3.
      + intros y l Hy Hl. apply HW in Hl; [|assumption]. destruct Hl as (s' & _ & (r' & _ & ->)). reflexivity.
      + apply HW; [assumption|]. exists s. split; [assumption|]. exists r. auto.
      + intros y Hy Hl. apply HW in Hl; [|assumption]. destruct Hl as (s' & Hs' & (r' & Hr' & E)).
        cbn [fst snd] in E. injection E as E. destruct (HX x y s s' r r') as [-> _]; auto.
    - intros l Hl. rewrite E3. apply fills_off; [assumption|].
      intros x Hx Hw. apply HW in Hw; [|assumption]. destruct Hw as (s & Hs & Hw). apply (Hl x s Hx Hs Hw).
  Qed.
End Jobs.
