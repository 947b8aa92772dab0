(* Tasks that fill a workspace from the tiles of a general band matrix. *)
From Coq Require Import ZArith List Bool Lia.
From Verif Require Import Base NumModel NumProofs FieldModel TaskModel TaskSpec TaskProofs DescModel DescSpec
  DescDriverModel DescProofs DescPackProofs DescProofs3 DescProofs4 MatModel MatSpec MatProofs RegionProofs
  LayoutModel LayoutProofs LayoutProofs2 DriverModel DriverSpec OpProofs OperandProofs GemmProofs
  BandModel BandSpec BandProofs BandLayoutProofs BandGbProofs EwProofs SwpModel NormModel NormSpec FillProofs
  NormProofs NormDriverProofs NormBandModel NormGbLayoutProofs.
Import ListNotations.
Open Scope Z_scope.

Section Region.
  Context {N : normed}.
  Variables (A : desc) (nb m n kl ku b : Z) (p : loc) (ld w : Z).
  Hypothesis HA : gd_ok A nb m n kl ku.
  Hypothesis SQ : n <= m \/ m mod nb = 0.
  Hypothesis H1 : fst p <> b.
  Hypothesis H2 : fst p <> w.
  Hypothesis H3 : b <> w.
  Variable M : mem N.
  Variable a : Z -> Z -> N.
  Hypothesis HR0 : forall i j, in_matrix m n i j -> gd_read nb kl ku i j -> gd_src kl ku p ld M i j = a i j.
  Hypothesis HZ0 : forall i j, in_matrix m n i j -> ~ (- (kl + ku) <= i - j <= kl) -> a i j = n0.

  (* what the tile (i,j) holds *)
  Definition gtile (i j : Z) : Z -> Z -> N := fun r c => a (i * nb + r) (j * nb + c).

  Lemma gtile_agree : forall M3 i j, in_tb A i j ->
    (forall x y, in_matrix m n x y -> in_tb A (x / nb) (y / nb) -> el M3 b A x y = a x y) ->
    agree (tsz nb m i) (tsz nb n j) (rd M3 (tptr b A i j) nb) (gtile i j).
  Proof using HA.
    clear H1 H2 H3. intros M3 i j HI E r c Hr Hc. pose proof (gd_sq _ _ _ _ _ _ HA) as S.
    destruct (gd_views A nb m n kl ku HA i j HI) as (V1 & V2 & V3 & V4 & V5 & V6).
    rewrite <- (gd_mmain _ _ _ _ _ _ HA i) at 1.
    assert (Hr' : 0 <= r < tsz nb (d_m A) i) by (rewrite (gd_m _ _ _ _ _ _ HA); assumption).
    assert (Hc' : 0 <= c < tsz nb (d_n A) j) by (rewrite (gd_n _ _ _ _ _ _ HA); assumption).
    rewrite (sq_rd nb A (in_tb A) S b M3 i j r c HI Hr' Hc'). unfold gtile. unfold tsz in *.
    pose proof (gd_pos _ _ _ _ _ _ HA) as Hb.
    apply E; [split; lia|].
    rewrite (div_eq (i * nb + r) nb i r), (div_eq (j * nb + c) nb j c) by lia. assumption.
  Qed.

  Section Jobs.
    Variable I : Type.
    Variables (t : I -> ktask N) (tm tn : I -> Z) (segs : I -> list (Z * Z)) (L : list I).
    Hypothesis HN : NoDup L.
    Hypothesis HG : forall x, In x L -> kgood (t x).
    Hypothesis HI : forall x, In x L -> in_tb A (tm x) (tn x).
    Hypothesis HD : forall x, In x L ->
      k_deps (t x) = dep_in (tptr b A (tm x) (tn x)) :: map (fun s => dep_out (w, fst s)) (segs x).
    Hypothesis HR : forall x l, In x L -> k_reads (t x) l ->
      reg (tptr b A (tm x) (tn x)) nb (tsz nb m (tm x)) (tsz nb n (tn x)) everywhere l.
    Hypothesis HW : forall x l, In x L -> (k_writes (t x) l <-> exists s, In s (segs x) /\ seg (w, fst s) (snd s) l).
    Hypothesis HX : forall x y s s' r r', In x L -> In y L -> In s (segs x) -> In s' (segs y) ->
      0 <= r < snd s -> 0 <= r' < snd s' -> fst s + r = fst s' + r' -> x = y /\ s = s'.

    Lemma gjobs_kdecl : Forall (kdecl (home_env [(b, homeD A (in_tb A)); (w, job_home segs L)])) (map t L).
    Proof using HA HI HD HR HW.
      apply Forall_forall. intros k Hk. apply in_map_iff in Hk. destruct Hk as (x & <- & Hx).
      apply kdecl_intro; rewrite (HD x Hx).
      - intros l Hl. left. eexists. split; [left; reflexivity|]. cbn [dep_addr dep_in].
        destruct (gd_views A nb m n kl ku HA _ _ (HI x Hx)) as (_ & _ & _ & _ & V5 & V6).
        pose proof (HR x l Hx Hl) as RR. rewrite <- V5, <- V6, <- (gd_mmain _ _ _ _ _ _ HA (tm x)) in RR.
        eapply home_tile; [left; reflexivity|apply HI; assumption|exact RR].
      - intros l Hl. apply HW in Hl; [|assumption]. destruct Hl as (s & Hs & (r & Hr & ->)).
        exists (dep_out (w, fst s)). split; [right; apply (in_map (fun s => dep_out (w, fst s))); assumption|].
        split; [|discriminate]. split; [reflexivity|]. exists (job_home segs L). split; [right; left; reflexivity|].
        exists x, s, r. cbn. auto.
    Qed.

    Lemma gjobs_region : region_ensures (pzpb2desc p ld b A ++ map t L) M
      (fun M' => exists M3,
        (forall i j, in_matrix m n i j -> in_tb A (i / nb) (j / nb) -> el M3 b A i j = a i j) /\
        (forall l, fst l <> b -> M3 l = M l) /\
        (forall x s r, In x L -> In s (segs x) -> 0 <= r < snd s ->
           M' (w, fst s + r) = k_fun (t x) M3 (w, fst s + r)) /\
        (forall l, (forall x s, In x L -> In s (segs x) -> ~ seg (w, fst s) (snd s) l) -> M' l = M3 l)).
    Proof using HA SQ H1 H2 H3 HR0 HZ0 HN HG HI HD HR HW HX.
      assert (JG : Forall kgood (map t L)).
      { apply Forall_forall. intros k Hk. apply in_map_iff in Hk. destruct Hk as (x & <- & Hx). auto. }
      assert (KS : Forall ksound (map t L)) by (apply kgood_sound, JG).
      apply (region_env N [(b, homeD A (in_tb A)); (w, job_home segs L)]).
      - cbn. constructor; [|constructor; [intros []|constructor]]. intros [E|[]]. congruence.
      - intros b' h [E|[E|[]]]; injection E as <- <-.
        + apply homeD_functional, (sq_t nb _ _ (gd_sq _ _ _ _ _ _ HA)).
        + intros o x x' (y & s & r & P1 & P2 & P3 & P4 & P5) (y' & s' & r' & Q1 & Q2 & Q3 & Q4 & Q5).
          destruct (HX y y' s s' r r') as [_ E]; auto; congruence.
      - apply Forall_app. split; [|assumption]. eapply gd_copy_kgood; eauto.
      - apply Forall_app. split; [|apply gjobs_kdecl]. eapply gd_copy_kdecl; eauto.
        + left; reflexivity.
        + cbn. intros [E|[E|[]]]; congruence.
      - intros M' HM. exists (krun (pzpb2desc p ld b A) M). split; [|split; [|split]].
        + intros i j Hij HT. eapply gd_copy_spec; eauto.
        + intros l Hl. eapply gd_copy_frame; eauto.
        + intros x s r Hx Hs Hr. rewrite HM, krun_app. apply fills_at; auto.
          * intros y l Hy Hl. rewrite (reg_block _ _ _ _ _ _ (HR y l Hy Hl)). exact H3.
          * intros y l Hy Hl. apply HW in Hl; [|assumption]. destruct Hl as (s' & _ & (r' & _ & ->)). reflexivity.
          * apply HW; [assumption|]. exists s. split; [assumption|]. exists r. auto.
          * intros y Hy Hl. apply HW in Hl; [|assumption]. destruct Hl as (s' & Hs' & (r' & Hr' & E)).
            cbn [fst snd] in E. injection E as E. destruct (HX x y s s' r r') as [-> _]; auto.
        + intros l Hl. rewrite HM, krun_app. apply fills_off; [assumption|].
          intros x Hx Hw. apply HW in Hw; [|assumption]. destruct Hw as (s & Hs & Hw). apply (Hl x s Hx Hs Hw).
    Qed.
  End Jobs.

  (* one segment for every task *)
  Lemma gseg1 : forall (I : Type) (L : list I) (tm tn off len : I -> Z) (t : I -> ktask N) (val : I -> (Z -> Z -> N) -> Z -> N),
    NoDup L -> (forall x, In x L -> in_tb A (tm x) (tn x)) ->
    (forall x F F' r, In x L -> agree (tsz nb m (tm x)) (tsz nb n (tn x)) F F' -> 0 <= r < len x -> val x F r = val x F' r) ->
    (forall x y r r', In x L -> In y L -> 0 <= r < len x -> 0 <= r' < len y -> off x + r = off y + r' -> x = y) ->
    (forall x, In x L -> t x = {| k_deps := [dep_in (tptr b A (tm x) (tn x)); dep_out (w, off x)];
       k_fun := fun M => fill (w, off x) (len x) (val x (rd M (tptr b A (tm x) (tn x)) nb)) M;
       k_reads := reg (tptr b A (tm x) (tn x)) nb (tsz nb m (tm x)) (tsz nb n (tn x)) everywhere;
       k_writes := seg (w, off x) (len x) |}) ->
    region_ensures (pzpb2desc p ld b A ++ map t L) M
    (fun M' => (forall x r, In x L -> 0 <= r < len x -> M' (w, off x + r) = val x (gtile (tm x) (tn x)) r) /\
               (forall l, fst l <> b -> (forall x, In x L -> ~ seg (w, off x) (len x) l) -> M' l = M l)).
  Proof using HA SQ H1 H2 H3 HR0 HZ0.
    intros I L tm tn off len t val HN HI HV HX HT.
    eapply region_mono; [|apply (gjobs_region I t tm tn (fun x => [(off x, len x)]) L); auto].
    - intros M' (M3 & E1 & E2 & E3 & E4). split.
      + intros x r Hx Hr. pose proof (E3 x (off x, len x) r Hx (or_introl eq_refl) Hr) as E.
        cbn [fst snd] in E. rewrite E, (HT x Hx). cbn [k_fun].
        rewrite (fill_in N (w, off x)) by assumption. apply HV; [assumption| |assumption].
        apply gtile_agree; auto.
      + intros l L1 L2. rewrite E4, E2; auto. intros x s Hx [<-|[]]. apply L2. assumption.
    - intros x Hx. rewrite (HT x Hx). apply (fill_kgood N); [apply finite_reg|].
      intros M1 M2 r Hr HM. apply HV; [assumption| |assumption]. apply agree_reg. assumption.
    - intros x Hx. rewrite (HT x Hx). reflexivity.
    - intros x l Hx. rewrite (HT x Hx). auto.
    - intros x l Hx. rewrite (HT x Hx). cbn [k_writes]. split.
      + intros Hl. exists (off x, len x). split; [left; reflexivity|assumption].
      + intros (s & [<-|[]] & Hl). assumption.
    - intros x y s s' r r' Hp Hq [<-|[]] [<-|[]] Hr Hr' E. cbn [fst snd] in *.
      assert (x = y) as -> by (apply (HX x y r r'); auto). auto.
  Qed.

  (* two cells for every task *)
  Lemma gseg2 : forall (I : Type) (L : list I) (tm tn off : I -> Z) (S : Z) (t : I -> ktask N) (val : I -> (Z -> Z -> N) -> N * N),
    NoDup L -> (forall x, In x L -> in_tb A (tm x) (tn x)) ->
    (forall x F F', In x L -> agree (tsz nb m (tm x)) (tsz nb n (tn x)) F F' -> val x F = val x F') ->
    (forall x, In x L -> 0 <= off x < S) ->
    (forall x y, In x L -> In y L -> off x = off y -> x = y) ->
    (forall x, In x L -> t x = {| k_deps := [dep_in (tptr b A (tm x) (tn x)); dep_out (w, off x); dep_out (w, S + off x)];
       k_fun := fun M => fill (w, S + off x) 1 (fun _ => snd (val x (rd M (tptr b A (tm x) (tn x)) nb)))
                    (fill (w, off x) 1 (fun _ => fst (val x (rd M (tptr b A (tm x) (tn x)) nb))) M);
       k_reads := reg (tptr b A (tm x) (tn x)) nb (tsz nb m (tm x)) (tsz nb n (tn x)) everywhere;
       k_writes := fun l => seg (w, off x) 1 l \/ seg (w, S + off x) 1 l |}) ->
    region_ensures (pzpb2desc p ld b A ++ map t L) M
    (fun M' => (forall x, In x L -> (M' (w, off x), M' (w, S + off x)) = val x (gtile (tm x) (tn x))) /\
               (forall l, fst l <> b -> (forall x, In x L -> l <> (w, off x) /\ l <> (w, S + off x)) -> M' l = M l)).
  Proof using HA SQ H1 H2 H3 HR0 HZ0.
    intros I L tm tn off S t val HN HI HV HB HX HT.
    eapply region_mono; [|apply (gjobs_region I t tm tn (fun x => [(off x, 1); (S + off x, 1)]) L); auto].
    - intros M' (M3 & E1 & E2 & E3 & E4). split.
      + intros x Hx.
        pose proof (E3 x _ 0 Hx (or_introl eq_refl) ltac:(cbn; lia)) as F1.
        pose proof (E3 x _ 0 Hx (or_intror (or_introl eq_refl)) ltac:(cbn; lia)) as F2.
        cbn [fst snd] in F1, F2. rewrite Z.add_0_r in F1, F2. rewrite F1, F2. clear F1 F2.
        rewrite (HT x Hx). cbn [k_fun]. rewrite fill_out.
        2: { intros (r & Hr & E). cbn [fst snd] in E. injection E as E. specialize (HB x Hx). lia. }
        replace (w, off x) with (w, off x + 0) at 2 by (f_equal; lia). rewrite (fill_in N (w, off x) 1) by lia.
        replace (w, S + off x) with (w, S + off x + 0) at 2 by (f_equal; lia). rewrite (fill_in N (w, S + off x) 1) by lia.
        rewrite (HV x _ (gtile (tm x) (tn x)) Hx).
        2: { apply gtile_agree; auto. }
        symmetry. apply surjective_pairing.
      + intros l L1 L2. rewrite E4, E2; auto. intros x s Hx Hs (r & Hr & El). destruct (L2 x Hx) as [N1 N2].
        destruct Hs as [<-|[<-|[]]]; cbn [fst snd] in *; [apply N1|apply N2]; rewrite El; f_equal; lia.
    - intros x Hx. rewrite (HT x Hx).
      apply (fill2_kgood N _ (w, off x) 1 (fun M _ => fst (val x (rd M (tptr b A (tm x) (tn x)) nb)))
        (w, S + off x) 1 (fun M _ => snd (val x (rd M (tptr b A (tm x) (tn x)) nb)))); [apply finite_reg| |];
      intros M1 M2 r Hr HM; apply f_equal; apply HV; auto; apply agree_reg; assumption.
    - intros x Hx. rewrite (HT x Hx). reflexivity.
    - intros x l Hx. rewrite (HT x Hx). auto.
    - intros x l Hx. rewrite (HT x Hx). cbn [k_writes]. split.
      + intros [Hl|Hl]; eexists; split; [left; reflexivity|exact Hl|right; left; reflexivity|exact Hl].
      + intros (s & [<-|[<-|[]]] & Hl); auto.
    - intros x y s s' r r' Hp Hq Hs Hs' Hr Hr' E. pose proof (HB x Hp) as B1. pose proof (HB y Hq) as B2.
      assert (EE : off x = off y /\ (fst s <? S) = (fst s' <? S)).
      { clear H1 H2 H3. destruct Hs as [<-|[<-|[]]], Hs' as [<-|[<-|[]]]; cbn [fst snd] in *; split; lia. }
      destruct EE as [E1 E2]. assert (x = y) as -> by auto. split; [reflexivity|].
      destruct Hs as [<-|[<-|[]]], Hs' as [<-|[<-|[]]]; cbn [fst snd] in *; try reflexivity; clear H1 H2 H3; lia.
  Qed.
End Region.
