(* The interchanges with the pivots read from memory. *)
From Coq Require Import ZArith List Bool Lia.
From Verif Require Import Base NumModel FieldModel TaskModel TaskSpec TaskProofs GuardModel GuardSpec GuardProofs DescModel DescSpec DescProofs DescDriverModel
  MatModel MatProofs RegionProofs LayoutModel TriModel DriverModel SwpModel SwpSpec SwpProofs PanelProofs SwpDriverProofs PotrfModel TrtriModel GetriModel GetrfModel GetrfSpec GetrfProofs
  GetrfLinkProofs GesvModel GesvLiftProofs.
Import ListNotations.
Open Scope Z_scope.

Lemma fold_left_ext_in : forall (A B : Type) (f g : A -> B -> A) l a, (forall a b, In b l -> f a b = g a b) ->
  fold_left f l a = fold_left g l a.
Proof.
  intros A B f g l. induction l as [|b l IH]; intros a H; cbn; [reflexivity|]. rewrite H by (left; reflexivity).
  apply IH. intros a' b' H'. apply H. right. assumption.
Qed.

Lemma core_zgeswp_ext : forall V colrow b A k pv pv' incx (M : mem V), 0 <= k -> incx = 1 \/ incx = -1 ->
  (forall i, 0 <= i < k -> pv i = pv' i) ->
  core_zgeswp colrow b A 1 k pv incx M = core_zgeswp colrow b A 1 k pv' incx M.
Proof.
  intros V colrow b A k pv pv' incx M Hk HX E. unfold core_zgeswp.
  destruct (colrow =? PlasmaRowwise); apply fold_left_ext_in; intros N i Hi; apply swp_indices_in in Hi; auto.
  - unfold swp_row. rewrite E by assumption. reflexivity.
  - unfold swp_col. rewrite E by assumption. reflexivity.
Qed.

Section Swp.
  Context {F : fields}.
  Variables (nb colrow b : Z) (A : desc) (pI : loc) (incx : Z).
  Hypotheses (GA : gen_ok A) (Emb : d_mb A = nb) (Enb : d_nb A = nb).
  Hypothesis HC : valid_colrow colrow.
  Hypothesis HX : incx = 1 \/ incx = -1.
  Let len := swp_len A colrow.

  (* the tasks of the interchanges proper *)
  Definition swp_one (pv : Z -> Z) (p : Z) : ktask F :=
    if colrow =? PlasmaRowwise then swp_task_row b A pI pv incx p else swp_task_col b A pI pv incx p.
  Definition swp_idx : list Z := if colrow =? PlasmaRowwise then zrange 0 (d_nt A) else zrange 0 (d_mt A).

  Lemma krun_fakes : forall V (ds : list (list dep)) (M : mem V), krun (map fake_task ds) M = M.
  Proof. intros V ds. induction ds as [|d ds IH]; intros M; cbn; [reflexivity|]. apply IH. Qed.
  Lemma krun_fakes' : forall V (g : Z -> list dep) zs (M : mem V), krun (map (fun z => fake_task (g z)) zs) M = M.
  Proof. intros V g zs M. rewrite <- (map_map g fake_task). apply krun_fakes. Qed.

  Lemma krun_panels : forall V (f : Z -> ktask V) (g h : Z -> Z -> list dep) zs zs' M,
    krun (flat_map (fun p => map (fun z => fake_task (g p z)) zs ++ [f p] ++ map (fun z => fake_task (h p z)) zs) zs') M
    = fold_left (fun M p => k_fun (f p) M) zs' M.
  Proof.
    intros V f g h zs zs'. induction zs' as [|p zs' IH]; intros M; cbn [flat_map fold_left]; [reflexivity|].
    rewrite !krun_app, IH, !krun_fakes'. reflexivity.
  Qed.

  Lemma krun_swp : forall pv (M : mem F), krun (pzgeswp colrow b A pI pv incx) M
    = fold_left (fun M p => k_fun (swp_one pv p) M) swp_idx M.
  Proof.
    intros pv M. unfold pzgeswp, swp_one, swp_idx. destruct (colrow =? PlasmaRowwise); rewrite krun_panels; reflexivity.
  Qed.
  Lemma krun_swp_mem : forall M, krun (pzgeswp_mem (F := F) colrow b A pI incx) M
    = fold_left (fun M p => swp_read pI len (fun pv => k_fun (swp_one pv p)) M) swp_idx M.
  Proof.
    intros M. unfold pzgeswp_mem, swp_one, swp_idx, len, swp_len. destruct (colrow =? PlasmaRowwise); rewrite krun_panels; reflexivity.
  Qed.

  Lemma legal_true : forall M : mem (cell F), legal_pivots (ipiv_rd M pI) len ->
    forallb (fun i => (1 <=? ipiv_rd M pI i) && (ipiv_rd M pI i <=? len)) (zrange 0 len) = true.
  Proof.
    intros M H. apply forallb_forall. intros i Hi. apply in_zrange in Hi. specialize (H i Hi). apply andb_true_iff. lia.
  Qed.

  Lemma pzgeswp_mem_run : forall M l, legal_pivots (ipiv_rd M pI) len ->
    krun (pzgeswp_mem (F := F) colrow b A pI incx) M l = on_nums (krun (pzgeswp colrow b A pI (ipiv_rd M pI) incx)) M l.
  Proof.
    intros M l H. rewrite krun_swp_mem. unfold on_nums. rewrite krun_swp. generalize swp_idx. intros zs. revert M H.
    induction zs as [|p zs IH]; intros M H; cbn [fold_left].
    - apply surjective_pairing.
    - unfold swp_read at 2. rewrite legal_true by assumption. rewrite IH by assumption. reflexivity.
  Qed.

  Lemma len_pos : 0 <= len.
  Proof. unfold len, swp_len. destruct (colrow =? PlasmaRowwise); [apply (go_m A (gk_shape A GA))|apply (go_n A (gk_shape A GA))]. Qed.

  Lemma swp_one_good : forall pv p, legal_pivots pv len -> In p swp_idx -> kgood (swp_one pv p).
  Proof.
    intros pv p HL Hp. pose proof (pzgeswp_kgood (V := F) nb b A GA Emb Enb pI pv incx HX colrow HC HL) as K.
    rewrite Forall_forall in K. apply K.
    unfold pzgeswp, swp_one, swp_idx in *. destruct (colrow =? PlasmaRowwise); apply in_flat_map; exists p; (split; [assumption|]);
      apply in_or_app; right; left; reflexivity.
  Qed.

  Lemma legal_id : legal_pivots (fun i => i + 1) len.
  Proof. intros i Hi. lia. Qed.

  Lemma pzgeswp_mem_kgood : Forall kgood (pzgeswp_mem (F := F) colrow b A pI incx).
  Proof.
    assert (G : forall p, In p swp_idx -> kgood (swp_reads pI len (fun pv => swp_one pv p))).
    { intros p Hp. pose proof (swp_one_good _ p legal_id Hp) as K. apply swp_reads_kgood.
      - intros pv l. unfold swp_one. destruct (colrow =? PlasmaRowwise); reflexivity.
      - intros pv l. unfold swp_one. destruct (colrow =? PlasmaRowwise); reflexivity.
      - intros l. unfold swp_one. destruct (colrow =? PlasmaRowwise); auto.
      - pose proof (kg_reads _ K) as H. revert H. unfold swp_one. destruct (colrow =? PlasmaRowwise); auto.
      - pose proof (kg_writes _ K) as H. revert H. unfold swp_one. destruct (colrow =? PlasmaRowwise); auto.
      - intros pv HL. apply swp_one_good; assumption.
      - intros pv pv' M E _. pose proof len_pos as LP. unfold swp_one, len, swp_len in *.
        destruct (colrow =? PlasmaRowwise); cbn [swp_task_row swp_task_col k_fun]; apply core_zgeswp_ext; auto. }
    apply Forall_forall. intros k Hk. unfold pzgeswp_mem, swp_idx, swp_one, len, swp_len in *.
    destruct (colrow =? PlasmaRowwise); apply in_flat_map in Hk; destruct Hk as (p & Hp & Hk); apply in_app_or in Hk;
      (destruct Hk as [Hk|[<-|Hk]]; [apply in_map_iff in Hk; destruct Hk as (z & <- & _); apply fake_kgood|apply G; assumption
        |apply in_map_iff in Hk; destruct Hk as (z & <- & _); apply fake_kgood]).
  Qed.

  (* the tasks and those with the pivots given *)
  Definition swp_like (k k' : ktask (cell F)) : Prop :=
    k_deps k = k_deps k' /\ (forall l, k_writes k' l -> k_writes k l) /\
    (forall l, k_reads k' l -> k_reads k l \/ fst l = fst pI /\ In (dep_in pI) (k_deps k')).

  Lemma swp_like_refl : forall k, swp_like k k.
  Proof. intros k. unfold swp_like. auto. Qed.
  Lemma swp_like_refls : forall ks, Forall2 swp_like ks ks.
  Proof. intros ks. induction ks; constructor; auto using swp_like_refl. Qed.
  Lemma swp_like_map : forall T (f g : T -> list (ktask (cell F))) zs, (forall z, Forall2 swp_like (f z) (g z)) ->
    Forall2 swp_like (flat_map f zs) (flat_map g zs).
  Proof. intros T f g zs H. induction zs as [|z zs IH]; cbn; [constructor|]. apply Forall2_app; auto. Qed.

  Lemma pzgeswp_mem_like : forall pv, Forall2 swp_like (pzgeswp (V := cell F) colrow b A pI pv incx) (pzgeswp_mem colrow b A pI incx).
  Proof.
    intros pv. unfold pzgeswp, pzgeswp_mem. destruct (colrow =? PlasmaRowwise); apply swp_like_map; intros z;
      (apply Forall2_app; [apply swp_like_refls|]; apply Forall2_app; [|apply swp_like_refls]; constructor; [|constructor];
       split; [reflexivity|]; split; [auto|]; intros l [Hl|(t & _ & ->)]; [left; exact Hl|right; split; [reflexivity|left; reflexivity]]).
  Qed.

  Lemma klinked_like : forall ks ks', Forall2 swp_like ks ks' ->
    (forall k l, In k ks' -> k_writes k l -> fst l <> fst pI) -> klinked ks -> klinked ks'.
  Proof.
    intros ks ks' HF HW. apply (klinked_rel swp_like); [intros k k' H; apply H|assumption|].
    intros a c a' c' (_ & Wa & Ra) (_ & Wc & Rc) Ia Ic (l & H). exists l.
    destruct H as [[H1 [H2|H2]]|[H1 H2]].
    - destruct (Rc l H2) as [H3|[E _]]; [left; auto|]. exfalso. apply (HW a' l Ia H1 E).
    - left. auto.
    - destruct (Ra l H1) as [H3|[E _]]; [right; auto|]. exfalso. apply (HW c' l Ic H2 E).
  Qed.

  Lemma pzgeswp_mem_in : forall k, In k (pzgeswp_mem (F := F) colrow b A pI incx) ->
    exists k0, In k0 (pzgeswp (V := cell F) colrow b A pI (fun i => i + 1) incx) /\ swp_like k0 k.
  Proof.
    intros k Hk. pose proof (pzgeswp_mem_like (fun i => i + 1)) as H. induction H as [|x y xs ys E H IH]; [destruct Hk|].
    destruct Hk as [<-|Hk]; [exists x; split; [left; reflexivity|assumption]|].
    destruct (IH Hk) as (k0 & I0 & L0). exists k0. split; [right|]; assumption.
  Qed.

  Lemma pzgeswp_mem_writes : forall k l, In k (pzgeswp_mem (F := F) colrow b A pI incx) -> k_writes k l -> fst l = b.
  Proof.
    intros k l Hk HW. unfold pzgeswp_mem in Hk.
    destruct (colrow =? PlasmaRowwise); apply in_flat_map in Hk; destruct Hk as (p & Hp & Hk); apply in_app_or in Hk;
      (destruct Hk as [Hk|[<-|Hk]]; [apply in_map_iff in Hk; destruct Hk as (z & <- & _); destruct HW
        | destruct HW as (z & _ & HW); apply reg_block in HW; exact HW
        |apply in_map_iff in Hk; destruct Hk as (z & <- & _); destruct HW]).
  Qed.
End Swp.
