(* Tasks on numbers in a memory that holds integers as well. *)
From Coq Require Import ZArith List Bool Lia.
From Verif Require Import Base NumModel FieldModel TaskModel TaskSpec TaskProofs GuardModel GuardSpec GuardProofs DescModel DescDriverModel
  MatModel MatProofs RegionProofs LayoutModel TriModel DriverModel SwpModel SwpSpec PanelProofs SwpDriverProofs PotrfModel TrtriModel GetriModel GetrfModel GetrfSpec GetrfProofs
  GetrfLinkProofs GesvModel.
Import ListNotations.
Open Scope Z_scope.

(* lists of tasks with the same depend clauses *)
Section Same.
  Context {V W : Type}.
  Variable R : ktask V -> ktask W -> Prop.
  Hypothesis RD : forall k k', R k k' -> k_deps k = k_deps k'.

  Lemma linked_rel : forall a l c, linked a l c -> forall a' l' c', R a a' -> R c c' -> Forall2 R l l' -> linked a' l' c'.
  Proof.
    intros a l c H. induction H as [a l c H|a l1 x l2 c H1 IH1 H2 IH2]; intros a' l' c' Ra Rc Rl.
    - apply ln_direct. rewrite <- (RD a a' Ra), <- (RD c c' Rc). assumption.
    - apply Forall2_app_inv_l in Rl. destruct Rl as (m1 & m2 & F1 & F2 & ->).
      inversion F2 as [|? x' ? m2' Rx F3]; subst. apply ln_trans; [apply IH1|apply IH2]; assumption.
  Qed.

  Lemma klinked_rel : forall ks ks', Forall2 R ks ks' ->
    (forall a c a' c', R a a' -> R c c' -> In a' ks' -> In c' ks' -> kconflict a' c' -> kconflict a c) ->
    klinked ks -> klinked ks'.
  Proof.
    intros ks ks' HF HC HK l1 a' l2 c' l3 E HX. subst ks'.
    apply Forall2_app_inv_r in HF. destruct HF as (m1 & m & F1 & F2 & ->).
    inversion F2 as [|a ? m' ? Ra F3]; subst.
    apply Forall2_app_inv_r in F3. destruct F3 as (m2 & m3 & F4 & F5 & ->).
    inversion F5 as [|c ? m4 ? Rc F6]; subst.
    apply (linked_rel a m2 c); try assumption. apply (HK m1 a m2 c m4); [reflexivity|].
    apply (HC a c a' c'); try assumption.
    - apply in_elt.
    - apply in_or_app. right. right. apply in_elt.
  Qed.
End Same.

(* more tasks in between do not hurt *)
Inductive sub {T} : list T -> list T -> Prop :=
| sub_nil : forall l, sub [] l
| sub_take : forall x l l', sub l l' -> sub (x :: l) (x :: l')
| sub_skip : forall x l l', sub l l' -> sub l (x :: l').

Lemma sub_refl : forall T (l : list T), sub l l.
Proof. intros T l. induction l; constructor; assumption. Qed.
Lemma sub_app : forall T (a a' c c' : list T), sub a a' -> sub c c' -> sub (a ++ c) (a' ++ c').
Proof.
  intros T a a' c c' H. revert c c'. induction H as [l|x l l' H IH|x l l' H IH]; intros c c' HC; cbn.
  - induction l as [|y l IH]; cbn; [assumption|]. apply sub_skip. assumption.
  - apply sub_take. apply IH. assumption.
  - apply sub_skip. apply IH. assumption.
Qed.
Lemma sub_pre : forall T (p l : list T), sub l (p ++ l).
Proof. intros T p l. apply (sub_app T [] p l l); [constructor|apply sub_refl]. Qed.
Lemma sub_mid : forall T (a c l : list T) x, sub (a ++ x :: c) l -> exists a' c', l = a' ++ x :: c' /\ sub a a' /\ sub c c'.
Proof.
  intros T a c l x H. remember (a ++ x :: c) as w eqn:E. revert a E. induction H as [l|y w l H IH|y w l H IH]; intros a E.
  - destruct a; discriminate.
  - destruct a as [|z a]; cbn in E; injection E as -> ->.
    + exists [], l. split; [reflexivity|]. split; [constructor|assumption].
    + destruct (IH a eq_refl) as (a' & c' & -> & S1 & S2). exists (z :: a'), c'. split; [reflexivity|]. split; [constructor|]; assumption.
  - destruct (IH a E) as (a' & c' & -> & S1 & S2). exists (y :: a'), c'. split; [reflexivity|]. split; [apply sub_skip|]; assumption.
Qed.

Lemma linked_sub : forall V (a : ktask V) l c, linked a l c -> forall l', sub l l' -> linked a l' c.
Proof.
  intros V a l c H. induction H as [a l c H|a l1 x l2 c H1 IH1 H2 IH2]; intros l' S.
  - apply ln_direct. assumption.
  - apply sub_mid in S. destruct S as (a' & c' & -> & S1 & S2). apply ln_trans; [apply IH1|apply IH2]; assumption.
Qed.

Lemma linked_in1 : forall V (x y z : ktask V) l m, In z l -> deps_order (k_deps x) (k_deps z) -> deps_order (k_deps z) (k_deps y) ->
  linked x (l ++ m) y.
Proof.
  intros V x y z l m HI H1 H2. apply in_split in HI. destruct HI as (p & q & ->). rewrite <- app_assoc. cbn [app].
  apply linked_via; assumption.
Qed.
Lemma linked_in2 : forall V (x y z1 z2 : ktask V) l m p q, l = p ++ z1 :: q -> In z2 q ->
  deps_order (k_deps x) (k_deps z1) -> deps_order (k_deps z1) (k_deps z2) -> deps_order (k_deps z2) (k_deps y) ->
  linked x (l ++ m) y.
Proof.
  intros V x y z1 z2 l m p q -> HI H1 H2 H3. rewrite <- app_assoc. cbn [app]. apply ln_trans; [apply ln_direct; assumption|].
  apply (linked_in1 V z1 y z2); assumption.
Qed.

(* the code reported when the tasks that may fail wait for each other *)
Lemma kcodes_mid : forall V (l1 : list (cktask V)) k l2 M,
  kcodes (l1 ++ k :: l2) M = kcodes l1 M ++ ck_info k (krun (map ck_task l1) M) :: kcodes l2 (krun (map ck_task (l1 ++ [k])) M).
Proof.
  intros V l1. induction l1 as [|a l1 IH]; intros k l2 M; cbn; [reflexivity|]. rewrite IH. cbn. reflexivity.
Qed.

Section Lift.
  Context {F : fields}.

  Lemma on_cells_kgood : forall k : ktask F, kgood k -> kgood (on_cells k).
  Proof.
    intros k [[S1 S2] R W]. constructor; cbn [on_cells k_reads k_writes].
    - split; cbn [on_cells k_reads k_writes k_fun]; unfold on_nums.
      + intros M l Hl. rewrite S1 by assumption. unfold nums. symmetry. apply surjective_pairing.
      + intros M M' l HR HW. f_equal.
        * apply S2; [|assumption]. intros x Hx. unfold nums. rewrite HR by auto. reflexivity.
        * rewrite HR by auto. reflexivity.
    - apply finite_or; assumption.
    - assumption.
  Qed.

  Lemma on_cells_kdecl : forall home (k : ktask F), kdecl home k -> kdecl home (on_cells k).
  Proof.
    intros home k [D1 D2]. split; cbn [on_cells k_reads k_writes k_deps].
    - intros l [Hl|Hl] HH; [apply D1; assumption|]. destruct (D2 l Hl) as (d & H1 & H2 & _). eauto.
    - assumption.
  Qed.

  Lemma krun_on_cells : forall (ks : list (ktask F)) M l, krun (map on_cells ks) M l = on_nums (krun ks) M l.
  Proof.
    intros ks. induction ks as [|k ks IH]; intros M l; cbn [map krun].
    - unfold on_nums, nums. apply surjective_pairing.
    - rewrite IH. reflexivity.
  Qed.

  Lemma on_ccells_sound : forall k : cktask F, cksound k -> cksound (on_ccells k).
  Proof.
    intros k [S1 S2]. split; cbn [on_ccells ck_task ck_info ck_may_fail on_cells k_reads].
    - intros M M' H. apply S1. intros l Hl. unfold nums. rewrite H by auto. reflexivity.
    - intros E M. apply S2. assumption.
  Qed.

  Lemma on_ccells_task : forall ks : list (cktask F), map ck_task (map on_ccells ks) = map on_cells (map ck_task ks).
  Proof. intros ks. rewrite !map_map. reflexivity. Qed.

  Lemma kcodes_on_ccells : forall (ks : list (cktask F)) M, kcodes (map on_ccells ks) M = kcodes ks (nums M).
  Proof.
    intros ks. induction ks as [|k ks IH]; intros M; cbn [map kcodes]; [reflexivity|]. rewrite IH. reflexivity.
  Qed.

  (* the interchanges *)
  Lemma swp_reads_kgood : forall pI len (k : (Z -> Z) -> ktask F),
    (forall pv l, k_writes (k pv) l <-> k_writes (k (fun _ => 0)) l) ->
    (forall pv l, k_reads (k pv) l <-> k_reads (k (fun _ => 0)) l) ->
    (forall l, k_writes (k (fun _ => 0)) l -> k_reads (k (fun _ => 0)) l) ->
    finite_set (k_reads (k (fun _ => 0))) -> finite_set (k_writes (k (fun _ => 0))) ->
    (forall pv, legal_pivots pv len -> kgood (k pv)) ->
    (forall pv pv' M, (forall i, 0 <= i < len -> pv i = pv' i) -> legal_pivots pv len -> k_fun (k pv) M = k_fun (k pv') M) ->
    kgood (swp_reads pI len k).
  Proof.
    intros pI len k KW KR KWR FR FW KG KE.
    assert (LG : forall M, forallb (fun i => (1 <=? ipiv_rd M pI i) && (ipiv_rd M pI i <=? len)) (zrange 0 len) = true ->
      legal_pivots (ipiv_rd (F := F) M pI) len).
    { intros M E i Hi. rewrite forallb_forall in E. specialize (E i (proj2 (in_zrange _ _ _) Hi)). apply andb_true_iff in E. lia. }
    constructor; cbn [swp_reads k_reads k_writes].
    - split; cbn [swp_reads k_reads k_writes k_fun]; unfold swp_read.
      + intros M l Hl. destruct (forallb _ _) eqn:E; [|reflexivity]. unfold on_nums.
        rewrite (proj1 (kg_sound _ (KG _ (LG M E)))) by (rewrite KW; assumption). unfold nums. symmetry. apply surjective_pairing.
      + intros M M' l HR HW.
        assert (EP : forall i, 0 <= i < len -> ipiv_rd M pI i = ipiv_rd M' pI i).
        { intros i Hi. unfold ipiv_rd. rewrite HR; [reflexivity|]. right. exists i. auto. }
        assert (EF : forallb (fun i => (1 <=? ipiv_rd M pI i) && (ipiv_rd M pI i <=? len)) (zrange 0 len)
                   = forallb (fun i => (1 <=? ipiv_rd M' pI i) && (ipiv_rd M' pI i <=? len)) (zrange 0 len)).
        { assert (HH : forall i, In i (zrange 0 len) -> (1 <=? ipiv_rd M pI i) && (ipiv_rd M pI i <=? len)
             = (1 <=? ipiv_rd M' pI i) && (ipiv_rd M' pI i <=? len)) by (intros i Hi; apply in_zrange in Hi; rewrite EP by assumption; reflexivity).
          clear -HH. induction (zrange 0 len) as [|a q IH]; cbn; [reflexivity|]. rewrite HH by (left; reflexivity). rewrite IH; [reflexivity|].
          intros i Hi. apply HH. right. assumption. }
        rewrite <- EF. destruct (forallb _ _) eqn:E; [|apply HR; left; apply KWR; assumption].
        unfold on_nums. f_equal; [|rewrite HR by (left; apply KWR; assumption); reflexivity].
        rewrite (KE (ipiv_rd M pI) (ipiv_rd M' pI)) by auto.
        assert (L' : legal_pivots (ipiv_rd M' pI) len) by (intros i Hi; rewrite <- EP by assumption; apply (LG M E); assumption).
        apply (proj2 (kg_sound _ (KG _ L'))); [|rewrite KW; assumption].
        intros x Hx. rewrite KR in Hx. unfold nums. rewrite HR by auto. reflexivity.
    - apply finite_or; [assumption|]. apply ipiv_sec_finite.
    - assumption.
  Qed.
End Lift.
