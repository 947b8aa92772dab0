(* plasma_zgeinv: the order of its tasks. *)
From Coq Require Import ZArith List Bool Lia.
From Verif Require Import Base NumModel FieldModel TaskModel TaskSpec TaskProofs GuardModel GuardSpec GuardProofs GuardProofs2 GuardAnyProofs DescModel DescSpec DescProofs DescProofs3 DescDriverModel
  MatModel MatProofs RegionProofs LayoutModel LayoutProofs LayoutProofs2 TriModel DriverModel DriverSpec SwpModel SwpSpec GroupProofs PanelProofs SwpDriverProofs GemmProofs GetrfModel GetrfSpec GetrfProofs
  GetrfLinkProofs GetrfRegionProofs GetrfDriverProofs PotrfModel ViewProofs TrtriModel TrtriTaskProofs TrtriProofs GetriModel GetriAuxProofs GetriLinkProofs GetriDriverProofs InvDriverProofs TriVecProofs OperandProofs GOperandProofs
  GesvModel GesvLiftProofs GesvSwpProofs GesvFlushProofs GesvLinkProofs GesvDriverProofs.
Import ListNotations.
Open Scope Z_scope.

Section Forget.
  Context {F : fields}.
  Variable pI : loc.

  (* a task that only declares what it touches *)
  Definition forget (k : ktask (cell F)) : ktask F :=
    {| k_deps := k_deps k; k_fun := fun M => M; k_reads := k_reads k; k_writes := k_writes k |}.

  Lemma forget_kdecl : forall home k, kdecl home k -> kdecl home (forget k).
  Proof. intros home k H. exact H. Qed.

  Definition celled (k : ktask F) (k' : ktask (cell F)) : Prop :=
    k_deps k = k_deps k' /\ (forall l, k_writes k' l -> k_writes k l) /\
    (forall l, k_reads k' l -> k_reads k l \/ k_writes k l \/ fst l = fst pI).

  Lemma celled_forget : forall ks, Forall2 celled (map forget ks) ks.
  Proof. intros ks. induction ks as [|k ks IH]; constructor; [|assumption]. unfold celled, forget. cbn. auto. Qed.
  Lemma celled_on : forall ks, Forall2 celled ks (map on_cells ks).
  Proof.
    intros ks. induction ks as [|k ks IH]; constructor; [|assumption]. unfold celled, on_cells. cbn.
    split; [reflexivity|]. split; [auto|]. intros l [H|H]; auto.
  Qed.
  Lemma celled_flat : forall T (f : T -> list (ktask F)) g zs, (forall z, Forall2 celled (f z) (g z)) ->
    Forall2 celled (flat_map f zs) (flat_map g zs).
  Proof. intros T f g zs H. induction zs as [|z zs IH]; cbn; [constructor|]. apply Forall2_app; auto. Qed.
  Lemma celled_fakes : forall (f : Z -> list dep) zs, Forall2 celled (map (fun z => fake_task (f z)) zs) (map (fun z => fake_task (f z)) zs).
  Proof.
    intros f zs. induction zs as [|z zs IH]; constructor; [|assumption]. unfold celled, fake_task. cbn. auto.
  Qed.
  Lemma celled_swp : forall colrow b A pv incx, Forall2 celled (pzgeswp colrow b A pI pv incx) (pzgeswp_mem colrow b A pI incx).
  Proof.
    intros colrow b A pv incx. unfold pzgeswp, pzgeswp_mem. destruct (colrow =? PlasmaRowwise); apply celled_flat; intros z;
      (apply Forall2_app; [apply celled_fakes|]; apply Forall2_app; [|apply celled_fakes]; constructor; [|constructor];
       split; [reflexivity|]; split; [auto|]; intros l [Hl|(t & _ & ->)]; [left; exact Hl|right; right; reflexivity]).
  Qed.

  Lemma klinked_celled : forall ks ks', Forall2 celled ks ks' ->
    (forall k l, In k ks' -> k_writes k l -> fst l <> fst pI) -> klinked ks -> klinked ks'.
  Proof.
    intros ks ks' HF HW. apply (klinked_rel celled); [intros k k' H; apply H|assumption|].
    intros a c a' c' (_ & Wa & Ra) (_ & Wc & Rc) Ia Ic (l & H). exists l.
    destruct H as [[H1 [H2|H2]]|[H1 H2]].
    - destruct (Rc l H2) as [H3|[H3|E]]; [left; auto|left; auto|]. exfalso. apply (HW a' l Ia H1 E).
    - left. auto.
    - destruct (Ra l H1) as [H3|[H3|E]]; [right; auto|left; auto|]. exfalso. apply (HW c' l Ic H2 E).
  Qed.
End Forget.

Section Order.
  Context {F : fields}.
  Variable bigger : F -> F -> bool.
  Variables (nb : Z) (A W : desc) (bA bW n : Z) (pI : loc) (ib mpt : Z) (pA : loc) (lda : Z).
  Hypothesis GA : gen_ok A.
  Hypothesis DA : dn nb A.
  Hypothesis DW : dn nb W.
  Hypothesis Amb : d_mb A = nb.
  Hypothesis Anb : d_nb A = nb.
  Hypothesis Am : d_m A = n.
  Hypothesis An : d_n A = n.
  Hypothesis Wm : d_m W = n.
  Hypothesis Wn : d_n W = nb.
  Hypothesis Hn : 0 < n.
  Hypothesis SQ : d_mt A = d_nt A.
  Hypothesis FEW : d_mt A <= 3.
  Hypothesis ND : NoDup [fst pA; fst pI; bA; bW].
  Let oA := ge_opnd bA A pA lda.
  Let KS := map ck_task (pzgetrf bigger bA A pI ib mpt).
  Let TR := map ck_task (pztrtri (F := F) PlasmaUpper PlasmaNonUnit bA A).
  Let AX := pzgetri_aux (F := F) bA A bW W.
  Let SW := pzgeswp_mem (F := F) PlasmaColumnwise bA A pI (-1).

  Let UP : valid_uplo PlasmaUpper := or_introl eq_refl.
  Let HSA := proj1 (dense_tiles nb n A PlasmaUpper DA Am An).

  Lemma nd4 : fst pA <> fst pI /\ fst pA <> bA /\ fst pA <> bW /\ fst pI <> bA /\ fst pI <> bW /\ bA <> bW.
  Proof.
    clear -ND. pose proof ND as H. repeat (let a := fresh in let b := fresh in inversion H as [|? ? a b]; clear H; subst; rename b into H; cbn in a).
    intuition congruence.
  Qed.

  Lemma TR_kdecl : forall env, In (bA, homeD A (in_tiles A)) env -> Forall (kdecl (home_env env)) (map on_cells TR).
  Proof.
    intros env E1. apply Forall_forall; intros k Hk; apply in_map_iff in Hk; destruct Hk as (k0 & <- & Hk).
    apply on_cells_kdecl; revert k0 Hk; apply Forall_forall. unfold TR.
    rewrite (pztrtri_eq nb n A (in_tiles A) bA PlasmaUpper PlasmaNonUnit UP DA Am An HSA).
    apply (tlist_kdecl nb n A (in_tiles A) bA PlasmaUpper PlasmaNonUnit UP DA Am An HSA). assumption.
  Qed.
  Lemma AX_kdecl : forall env, In (bA, homeD A (in_tiles A)) env -> In (bW, homeD W (in_tiles W)) env -> Forall (kdecl (home_env env)) (map on_cells AX).
  Proof.
    intros env E1 E2. apply Forall_forall; intros k Hk; apply in_map_iff in Hk; destruct Hk as (k0 & <- & Hk).
    apply on_cells_kdecl; revert k0 Hk; apply Forall_forall. apply (aux_kdecl nb n A W bA bW); assumption.
  Qed.

  Let D := map on_cells TR ++ map on_cells AX.

  Lemma D_kdecl : forall env, In (bA, homeD A (in_tiles A)) env -> In (bW, homeD W (in_tiles W)) env -> Forall (kdecl (home_env env)) D.
  Proof. intros env E1 E2. apply Forall_app. split; [apply TR_kdecl|apply AX_kdecl]; assumption. Qed.

  Lemma D_writes : forall k l, In k D -> k_writes k l -> fst l = bA \/ fst l = bW.
  Proof.
    intros k l Hk HW. pose proof (D_kdecl [(bA, homeD A (in_tiles A)); (bW, homeD W (in_tiles W))] ltac:(left; reflexivity) ltac:(right; left; reflexivity)) as HT.
    rewrite Forall_forall in HT. destruct (proj2 (HT k Hk) l HW) as (d & _ & (_ & h & Hh & _) & _).
    destruct Hh as [E|[E|[]]]; injection E as E _; auto.
  Qed.

  Lemma SWc_blocks : forall k l, In k SW -> (k_writes k l -> fst l = bA) /\ (k_reads k l -> fst l = bA \/ fst l = fst pI /\ In (dep_in pI) (k_deps k)).
  Proof.
    intros k l Hk. split; [apply (pzgeswp_mem_writes PlasmaColumnwise bA A pI (-1)); assumption|].
    intros HR. destruct (pzgeswp_mem_in PlasmaColumnwise bA A pI (-1) k Hk) as (k0 & H0 & (_ & _ & HR')).
    destruct (HR' l HR) as [H|H]; [|right; exact H]. left.
    revert H. apply (swp_block _ PlasmaColumnwise bA A pI (fun i => i + 1) (-1) k0 l H0).
  Qed.

  (* each element an interchange touches has been written by a solve *)
  Lemma SWc_solved : forall k l, In k SW -> fst l = bA -> k_reads k l \/ k_writes k l -> exists w, In w AX /\ k_writes w l.
  Proof.
    intros k l Hk Hb Hl. destruct nd4 as (N1 & N2 & N3 & N4 & N5 & N6).
    assert (RG : exists p, 0 <= p < d_mt A /\ row_reg bA A p l).
    { unfold SW, pzgeswp_mem in Hk. change (PlasmaColumnwise =? PlasmaRowwise) with false in Hk. cbv iota in Hk.
      apply in_flat_map in Hk. destruct Hk as (p & Hp & Hk). apply in_zrange in Hp. exists p. split; [assumption|].
      apply in_app_or in Hk. destruct Hk as [Hk|[<-|Hk]].
      - apply in_map_iff in Hk. destruct Hk as (z & <- & _). cbn in Hl. tauto.
      - cbn [swp_reads swp_task_col k_reads k_writes] in Hl. destruct Hl as [[Hl|(t & _ & ->)]|Hl]; [exact Hl| |exact Hl].
        cbn in Hb. congruence.
      - apply in_map_iff in Hk. destruct Hk as (z & <- & _). cbn in Hl. tauto. }
    destruct RG as (p & Hp & q & Hq & HR). exists (ts A W bA bW q p). split; [|exact HR].
    unfold AX. rewrite (pzgetri_aux_eq nb n A W bA bW DA Am An). apply in_flat_map. exists q.
    assert (MT : d_mt A = ntl nb n) by (apply (x_mt nb n A DA Am)).
    split; [apply in_zdown; lia|]. unfold astep, solves. apply in_or_app. right. apply in_or_app. right. apply in_map. apply in_zrange. lia.
  Qed.

  Lemma iorder : forall env, In (bA, homeD A (in_tiles A)) env -> In (bW, homeD W (in_tiles W)) env -> functional (home_env env) ->
    Forall (kdecl (home_env env)) (@o_in (cell F) oA) -> Forall (kdecl (home_env env)) (@o_out (cell F) oA) ->
    klinked (@o_in (cell F) oA ++ (KS ++ map on_cells TR ++ map on_cells AX ++ SW) ++ o_out oA).
  Proof.
    intros env EA EW HF DI DO. destruct nd4 as (N1 & N2 & N3 & N4 & N5 & N6).
    replace (o_in oA ++ (KS ++ map on_cells TR ++ map on_cells AX ++ SW) ++ o_out oA)
      with ((@o_in (cell F) oA ++ KS) ++ (D ++ SW ++ o_out oA)) by (unfold D; rewrite <- !app_assoc; reflexivity).
    assert (OW : forall k l, In k (@o_out (cell F) oA) -> k_writes k l -> fst l = fst pA).
    { intros k l Hk HW. apply in_flat_map in Hk; destruct Hk as ([a c] & _ & [<-|[]]); cbn in HW; apply reg_block in HW; cbn in HW; auto. }
    apply (after_getrf bigger bA A pI ib mpt SQ N4 env EA HF).
    - unfold oA, o_in. cbn [ge_opnd o_A o_b o_p o_ld o_idx]. apply (all_klinked bigger nb bA A pI ib mpt); auto; try lia.
    - apply (klinked_celled pI (map forget (@o_in (cell F) oA) ++ map ck_task (icomp A W bA bW pI (fun i => i + 1)) ++ map forget (o_out oA))).
      + apply Forall2_app; [apply celled_forget|]. rewrite app_assoc. apply Forall2_app; [|apply celled_forget].
        unfold icomp. rewrite map_app, map_sure, app_assoc. apply Forall2_app; [|apply celled_swp].
        unfold D. apply Forall2_app; apply celled_on.
      + intros k l Hk HW. rewrite !in_app_iff in Hk. destruct Hk as [Hk|[Hk|[Hk|Hk]]].
        * rewrite (o_in_writes _ oA k l Hk HW). cbn. congruence.
        * destruct (D_writes k l Hk HW) as [-> | ->]; congruence.
        * rewrite (proj1 (SWc_blocks k l Hk) HW). congruence.
        * rewrite (OW k l Hk HW). congruence.
      + apply (icomp_linked nb n A W bA bW pI (fun i => i + 1)) with (env := env); auto.
        * apply Forall_forall. intros k Hk. apply in_map_iff in Hk. destruct Hk as (k0 & <- & Hk). apply forget_kdecl. rewrite Forall_forall in DI. auto.
        * apply Forall_forall. intros k Hk. apply in_map_iff in Hk. destruct Hk as (k0 & <- & Hk). apply forget_kdecl. rewrite Forall_forall in DO. auto.
    - intros m1 y m2 l E Hl HY. pose proof (D_kdecl env EA EW) as HD. rewrite Forall_forall in HD, DO.
      symmetry in E. destruct (app_mid _ _ _ _ _ _ (eq_sym E)) as [(r & E3 & E4)|(r & E3 & E4)].
      + left. apply HD. rewrite E3. apply in_elt.
      + assert (IY : In y (SW ++ o_out oA)) by (rewrite E3; apply in_elt). apply in_app_or in IY. destruct IY as [IY|IY]; [|left; auto].
        right. destruct (SWc_solved y l IY Hl HY) as (w & IW & HW). apply in_split in IW. destruct IW as (a & c & EX).
        exists (map on_cells TR ++ map on_cells a), (on_cells w), (map on_cells c ++ r). split; [|split].
        * rewrite E4. unfold D. rewrite EX, map_app. cbn [map]. rewrite <- !app_assoc. reflexivity.
        * exact HW.
        * apply HD. unfold D. apply in_or_app. right. apply in_map. rewrite EX. apply in_elt.
    - intros k l Hk HW. apply in_app_or in Hk. destruct Hk as [Hk|Hk]; [|apply in_app_or in Hk; destruct Hk as [Hk|Hk]].
      + destruct (D_writes k l Hk HW) as [-> | ->]; congruence.
      + rewrite (proj1 (SWc_blocks k l Hk) HW). congruence.
      + rewrite (OW k l Hk HW). congruence.
    - intros k l Hk HR Hl. apply in_app_or in Hk. destruct Hk as [Hk|Hk]; [|apply in_app_or in Hk; destruct Hk as [Hk|Hk]].
      + pose proof (D_kdecl [(bA, homeD A (in_tiles A)); (bW, homeD W (in_tiles W)); (fst pI, fun _ a => a = snd pI)]
          ltac:(left; reflexivity) ltac:(right; left; reflexivity)) as HT.
        rewrite Forall_forall in HT. destruct (proj1 (HT k Hk) l HR) as (d & H1 & (H2 & h & Hh & H3)).
        * exists pI. split; [congruence|]. exists (fun _ a => a = snd pI). split; [rewrite Hl; right; right; left; reflexivity|reflexivity].
        * exists d. split; [assumption|]. destruct Hh as [E|[E|[E|[]]]]; try (injection E as E _; congruence).
          injection E as _ E. subst h. rewrite (surjective_pairing (dep_addr d)), (surjective_pairing pI), H2, H3, Hl. reflexivity.
      + destruct (proj2 (SWc_blocks k l Hk) HR) as [H|[_ H]]; [congruence|]. exists (dep_in pI). auto.
      + exfalso. pose proof (o_out_reads _ oA k l Hk HR) as E. cbn in E. congruence.
  Qed.
End Order.
