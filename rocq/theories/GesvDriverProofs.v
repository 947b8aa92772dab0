(* plasma_zgesv: the order of its tasks. *)
From Coq Require Import ZArith List Bool Lia.
From Verif Require Import Base NumModel FieldModel TaskModel TaskSpec TaskProofs GuardModel GuardSpec GuardProofs GuardProofs2 GuardAnyProofs DescModel DescSpec DescProofs DescProofs3 DescDriverModel
  MatModel MatProofs RegionProofs LayoutModel LayoutProofs LayoutProofs2 TriModel DriverModel DriverSpec SwpModel SwpSpec GroupProofs PanelProofs SwpDriverProofs GemmProofs GetrfModel GetrfSpec GetrfProofs
  GetrfLinkProofs GetrfRegionProofs GetrfDriverProofs GetrsModel GetrsProofs OperandProofs GOperandProofs GesvModel GesvLiftProofs GesvSwpProofs GesvFlushProofs GesvLinkProofs.
Import ListNotations.
Open Scope Z_scope.

Lemma o_in_reads : forall V o (k : ktask V) l, In k (o_in o) -> k_reads k l -> fst l = fst (o_p o).
Proof.
  intros V o k l Hk HR. apply in_flat_map in Hk. destruct Hk as ([m n] & _ & [<-|[]]).
  cbn in HR. apply reg_block in HR. rewrite HR. cbn. reflexivity.
Qed.
Lemma o_out_reads : forall V o (k : ktask V) l, In k (o_out o) -> k_reads k l -> fst l = o_b o.
Proof.
  intros V o k l Hk HR. apply in_flat_map in Hk. destruct Hk as ([m n] & _ & [<-|[]]).
  cbn in HR. apply reg_block in HR. rewrite HR. cbn. reflexivity.
Qed.

(* tasks that touch nothing in common can be put in between *)
Lemma klinked_insert : forall V (xs zs ks : list (ktask V)), klinked (xs ++ ks) -> klinked zs ->
  (forall z x, In z zs -> In x (xs ++ ks) -> ~ kconflict z x /\ ~ kconflict x z) -> klinked ((xs ++ zs) ++ ks).
Proof.
  intros V xs zs ks H1 H2 HN.
  assert (HX : klinked xs).
  { intros l1 a l2 c l3 E HC. apply (H1 l1 a l2 c (l3 ++ ks)); [|assumption]. rewrite E, <- !app_assoc. cbn [app]. rewrite <- app_assoc. reflexivity. }
  apply klinked_app.
  - apply klinked_app; [assumption|assumption|]. intros l1 x l2 m1 y m2 E1 E2 HC. exfalso.
    apply (proj2 (HN y x ltac:(rewrite E2; apply in_elt) ltac:(rewrite E1; rewrite !in_app_iff; left; right; left; reflexivity)) HC).
  - apply (klinked_suffix _ xs). assumption.
  - intros l1 x l2 m1 y m2 E1 E2 HC. destruct (app_mid _ _ _ _ _ _ E1) as [(l & E3 & E4)|(l & E3 & E4)].
    + rewrite E4. apply (linked_sub _ x (l ++ m1) y).
      * apply (H1 l1 x (l ++ m1) y m2); [|assumption]. rewrite E3, E2, <- ?app_assoc. cbn [app]. rewrite <- ?app_assoc. reflexivity.
      * apply sub_app; [|apply sub_refl]. rewrite <- (app_nil_r l) at 1. apply sub_app; [apply sub_refl|constructor].
    + exfalso. apply (proj1 (HN x y ltac:(rewrite E3; apply in_elt) ltac:(rewrite E2; apply in_or_app; right; apply in_elt)) HC).
Qed.

Lemma swp_block : forall V colrow b A pI ipiv incx (k : ktask V) l, In k (pzgeswp colrow b A pI ipiv incx) -> k_reads k l -> fst l = b.
Proof.
  intros V colrow b A pI ipiv incx k l Hk HR. unfold pzgeswp in Hk. destruct (colrow =? PlasmaRowwise); apply in_flat_map in Hk; destruct Hk as (q & _ & Hk);
    apply in_app_or in Hk; destruct Hk as [Hk|Hk].
  - apply in_map_iff in Hk. destruct Hk as (z & <- & _). destruct HR.
  - apply in_app_or in Hk. destruct Hk as [[<-|[]]|Hk]; [|apply in_map_iff in Hk; destruct Hk as (z & <- & _); destruct HR].
    destruct HR as (r & _ & H). apply reg_block in H. exact H.
  - apply in_map_iff in Hk. destruct Hk as (z & <- & _). destruct HR.
  - apply in_app_or in Hk. destruct Hk as [[<-|[]]|Hk]; [|apply in_map_iff in Hk; destruct Hk as (z & <- & _); destruct HR].
    destruct HR as (r & _ & H). apply reg_block in H. exact H.
Qed.

Section Order.
  Context {F : fields}.
  Variable bigger : F -> F -> bool.
  Variables (nb : Z) (A B : desc) (bA bB n : Z) (pI : loc) (ib mpt : Z) (pA pB : loc) (lda ldb : Z).
  Hypothesis GA : gen_ok A.
  Hypothesis GB : gen_ok B.
  Hypothesis DA : dn nb A.
  Hypothesis DB : dn nb B.
  Hypothesis Amb : d_mb A = nb.
  Hypothesis Anb : d_nb A = nb.
  Hypothesis Bmb : d_mb B = nb.
  Hypothesis Bnb : d_nb B = nb.
  Hypothesis Am : d_m A = n.
  Hypothesis An : d_n A = n.
  Hypothesis Bm : d_m B = n.
  Hypothesis Hn : 0 < n.
  Hypothesis SQ : d_mt A = d_nt A.
  Hypothesis FEW : d_mt A <= 3.
  Hypothesis ND : NoDup [fst pA; fst pB; fst pI; bA; bB].
  Let oA := ge_opnd bA A pA lda.
  Let oB := ge_opnd bB B pB ldb.
  Let KS := map ck_task (pzgetrf bigger bA A pI ib mpt).
  Let SW := pzgeswp_mem (F := F) PlasmaRowwise bB B pI 1.
  Let T := map on_cells (pztrsm (F := F) PlasmaLeft PlasmaLower PlasmaNoTrans PlasmaUnit n1 bA A bB B)
        ++ map on_cells (pztrsm PlasmaLeft PlasmaUpper PlasmaNoTrans PlasmaNonUnit n1 bA A bB B).

  Lemma nd5 : fst pA <> fst pB /\ fst pA <> fst pI /\ fst pA <> bA /\ fst pA <> bB /\ fst pB <> fst pI /\ fst pB <> bA /\
    fst pB <> bB /\ fst pI <> bA /\ fst pI <> bB /\ bA <> bB.
  Proof.
    clear -ND. pose proof ND as H. repeat (let a := fresh in let b := fresh in inversion H as [|? ? a b]; clear H; subst; rename b into H; cbn in a).
    intuition congruence.
  Qed.

  Lemma T_kdecl : forall env, In (bA, homeD A (in_tiles A)) env -> In (bB, homeD B (in_tiles B)) env -> Forall (kdecl (home_env env)) T.
  Proof.
    intros env E1 E2. unfold T. apply Forall_app. split; apply Forall_forall; intros k Hk; apply in_map_iff in Hk; destruct Hk as (k0 & <- & Hk);
      apply on_cells_kdecl; revert k0 Hk; apply Forall_forall; apply (left_kdecl nb A B bA bB n); auto; [right|left]; reflexivity.
  Qed.

  Lemma T_writes : forall k l, In k T -> k_writes k l -> fst l = bA \/ fst l = bB.
  Proof.
    intros k l Hk HW. pose proof (T_kdecl [(bA, homeD A (in_tiles A)); (bB, homeD B (in_tiles B))] ltac:(left; reflexivity) ltac:(right; left; reflexivity)) as HT.
    rewrite Forall_forall in HT. destruct (proj2 (HT k Hk) l HW) as (d & _ & (_ & h & Hh & _) & _).
    destruct Hh as [E|[E|[]]]; injection E as E _; auto.
  Qed.

  Lemma SW_blocks : forall k l, In k SW -> (k_writes k l -> fst l = bB) /\ (k_reads k l -> fst l = bB \/ fst l = fst pI /\ In (dep_in pI) (k_deps k)).
  Proof.
    intros k l Hk. split; [apply (pzgeswp_mem_writes PlasmaRowwise bB B pI 1); assumption|].
    intros HR. destruct (pzgeswp_mem_in PlasmaRowwise bB B pI 1 k Hk) as (k0 & H0 & (_ & _ & HR')).
    destruct (HR' l HR) as [H|H]; [|right; exact H]. left.
    revert H. apply (swp_block _ PlasmaRowwise bB B pI (fun i => i + 1) 1 k0 l H0).
  Qed.

  Lemma order : forall env, In (bA, homeD A (in_tiles A)) env -> In (bB, homeD B (in_tiles B)) env -> functional (home_env env) ->
    Forall (kdecl (home_env env)) (@o_in (cell F) oA ++ o_in oB) -> Forall (kdecl (home_env env)) (@o_out (cell F) oA ++ o_out oB) ->
    klinked ((@o_in (cell F) oA ++ o_in oB) ++ (KS ++ SW ++ T) ++ (o_out oA ++ o_out oB)).
  Proof.
    intros env EA EB HF DI DO. destruct nd5 as (N1 & N2 & N3 & N4 & N5 & N6 & N7 & N8 & N9 & N10).
    replace ((o_in oA ++ o_in oB) ++ (KS ++ SW ++ T) ++ (o_out oA ++ o_out oB))
      with (((@o_in (cell F) oA ++ o_in oB) ++ KS) ++ (SW ++ T ++ (o_out oA ++ o_out oB))) by (rewrite <- !app_assoc; reflexivity).
    assert (OW : forall k l, In k (@o_out (cell F) oA ++ o_out oB) -> k_writes k l -> fst l = fst pA \/ fst l = fst pB).
    { intros k l Hk HW. apply in_app_or in Hk. destruct Hk as [Hk|Hk]; apply in_flat_map in Hk; destruct Hk as ([a c] & _ & [<-|[]]);
        cbn in HW; apply reg_block in HW; cbn in HW; auto. }
    apply (after_getrf bigger bA A pI ib mpt SQ N8 env EA HF).
    - apply klinked_insert.
      + unfold oA, o_in. cbn [ge_opnd o_A o_b o_p o_ld o_idx].
        apply (all_klinked bigger nb bA A pI ib mpt); auto; try lia.
      + apply korders_klinked. apply (kdecl_korders _ (home_env env) _ HF). apply Forall_app in DI. apply DI.
      + intros z x Hz Hx.
        assert (ZR : forall l, k_reads z l -> fst l = fst pB) by (intros l; apply (o_in_reads _ oB z l Hz)).
        assert (ZW : forall l, k_writes z l -> fst l = bB) by (intros l; apply (o_in_writes _ oB z l Hz)).
        assert (XB : forall l, k_reads x l \/ k_writes x l -> fst l = fst pA \/ fst l = bA \/ fst l = fst pI).
        { intros l HX. apply in_app_or in Hx. destruct Hx as [Hx|Hx].
          - destruct HX as [HX|HX]; [left; apply (o_in_reads _ oA x l Hx HX)|right; left; apply (o_in_writes _ oA x l Hx HX)].
          - right. apply (KS_blocks bigger bA A pI ib mpt x l Hx HX). }
        split; intros (l & HC); specialize (ZR l); specialize (ZW l); specialize (XB l);
          destruct HC as [[H1 H2]|[H1 H2]]; intuition congruence.
    - apply (klinked_like pI ((@o_in (cell F) oA ++ o_in oB) ++ pzgeswp PlasmaRowwise bB B pI (fun i => i + 1) 1 ++ (T ++ (o_out oA ++ o_out oB)))).
      + apply Forall2_app; [apply swp_like_refls|]. apply Forall2_app; [apply pzgeswp_mem_like|apply swp_like_refls].
      + intros k l Hk HW. rewrite !in_app_iff in Hk. destruct Hk as [[Hk|Hk]|[Hk|[Hk|Hk]]].
        * rewrite (o_in_writes _ oA k l Hk HW). cbn. congruence.
        * rewrite (o_in_writes _ oB k l Hk HW). cbn. congruence.
        * rewrite (proj1 (SW_blocks k l Hk) HW). congruence.
        * destruct (T_writes k l Hk HW) as [-> | ->]; congruence.
        * destruct (OW k l ltac:(rewrite in_app_iff; exact Hk) HW) as [-> | ->]; congruence.
      + apply (pzgeswp_linked nb bB B GB Bmb Bnb pI (fun i => i + 1) 1 PlasmaRowwise) with (env := env); auto.
        * right. reflexivity.
        * intros i Hi. unfold swp_len in *. cbn. cbn in Hi. lia.
        * apply Forall_app. split; [apply T_kdecl; assumption|assumption].
        * intros k l Hk HR. apply in_app_or in Hk. destruct Hk as [Hk|Hk]; [rewrite (o_in_reads _ oA k l Hk HR)|rewrite (o_in_reads _ oB k l Hk HR)]; cbn; congruence.
    - intros m1 y m2 l E Hl HY. left. assert (IY : In y (SW ++ T ++ (o_out oA ++ o_out oB))) by (rewrite E; apply in_elt).
      apply in_app_or in IY. destruct IY as [IY|IY].
      + exfalso. destruct (SW_blocks y l IY) as [S1 S2]. destruct HY as [HY|HY]; [destruct (S2 HY) as [H|[H _]]|pose proof (S1 HY)]; congruence.
      + apply in_app_or in IY. destruct IY as [IY|IY].
        * pose proof (T_kdecl env EA EB) as HT. rewrite Forall_forall in HT. auto.
        * rewrite Forall_forall in DO. auto.
    - intros k l Hk HW. apply in_app_or in Hk. destruct Hk as [Hk|Hk]; [|apply in_app_or in Hk; destruct Hk as [Hk|Hk]].
      + rewrite (proj1 (SW_blocks k l Hk) HW). congruence.
      + destruct (T_writes k l Hk HW) as [-> | ->]; congruence.
      + destruct (OW k l Hk HW) as [-> | ->]; congruence.
    - intros k l Hk HR Hl. apply in_app_or in Hk. destruct Hk as [Hk|Hk]; [|apply in_app_or in Hk; destruct Hk as [Hk|Hk]].
      + destruct (proj2 (SW_blocks k l Hk) HR) as [H|[_ H]]; [congruence|]. exists (dep_in pI). auto.
      + pose proof (T_kdecl [(bA, homeD A (in_tiles A)); (bB, homeD B (in_tiles B)); (fst pI, fun _ a => a = snd pI)]
          ltac:(left; reflexivity) ltac:(right; left; reflexivity)) as HT.
        rewrite Forall_forall in HT. destruct (proj1 (HT k Hk) l HR) as (d & H1 & (H2 & h & Hh & H3)).
        * exists pI. split; [congruence|]. exists (fun _ a => a = snd pI). split; [rewrite Hl; right; right; left; reflexivity|reflexivity].
        * exists d. split; [assumption|]. destruct Hh as [E|[E|[E|[]]]]; try (injection E as E _; congruence).
          injection E as _ E. subst h. rewrite (surjective_pairing (dep_addr d)), (surjective_pairing pI), H2, H3, Hl. reflexivity.
      + exfalso. apply in_app_or in Hk. destruct Hk as [Hk|Hk]; [pose proof (o_out_reads _ oA k l Hk HR) as E|pose proof (o_out_reads _ oB k l Hk HR) as E]; cbn in E; congruence.
  Qed.
End Order.
