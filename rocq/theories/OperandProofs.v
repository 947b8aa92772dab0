(* Drivers: operands are translated in, tasks run on tiles, some operands are translated
   back, all in one region. *)
From Coq Require Import ZArith List Bool Lia.
From Verif Require Import Base NumModel TaskModel TaskSpec TaskProofs DescModel DescSpec
  DescProofs MatModel MatSpec MatProofs RegionProofs
  LayoutModel LayoutProofs LayoutProofs2 DriverModel DriverSpec OpProofs.
Import ListNotations.
Open Scope Z_scope.

Record opnd := mkopnd {
  o_b : Z; o_A : desc; o_S : Z -> Z -> Prop; o_idx : list (Z * Z); o_p : loc; o_ld : Z }.

Record ook (nb : Z) (o : opnd) : Prop := {
  oo_sq : sq nb (o_A o) (o_S o);
  oo_in : forall m n, In (m, n) (o_idx o) <-> o_S o m n;
  oo_nd : NoDup (o_idx o);
  oo_ld : d_m (o_A o) <= o_ld o }.

Definition o_in {V} (o : opnd) : list (ktask V) := copy_in_all (o_A o) (o_b o) (o_p o) (o_ld o) (o_idx o).
Definition o_out {V} (o : opnd) : list (ktask V) := copy_out_all (o_A o) (o_b o) (o_p o) (o_ld o) (o_idx o).

(* element (i,j) is stored in a tile of the operand *)
Definition o_el (o : opnd) (i j : Z) : Prop :=
  0 <= i < d_m (o_A o) /\ 0 <= j < d_n (o_A o) /\ o_S o (i / d_mb (o_A o)) (j / d_nb (o_A o)).
(* the user's location of a stored element *)
Definition o_user (o : opnd) (l : loc) : Prop :=
  exists i j, o_el o i j /\ l = (fst (o_p o), snd (o_p o) + i + j * o_ld o).
Definition oapart (o o' : opnd) : Prop := forall l,
  in_user (o_p o) (o_ld o) (d_m (o_A o)) (d_n (o_A o)) l -> ~ o_user o' l.

Definition o_homeD (o : opnd) : Z * (Z -> Z -> Prop) := (o_b o, homeD (o_A o) (o_S o)).
Definition o_homeU (o : opnd) : Z * (Z -> Z -> Prop) :=
  (fst (o_p o), homeU (o_A o) (o_S o) (o_p o) (o_ld o)).

Lemma homeU_user : forall nb o x a, ook nb o -> homeU (o_A o) (o_S o) (o_p o) (o_ld o) x a ->
  o_user o (fst (o_p o), x).
Proof.
  intros nb o x a HO (m & n & r & c & HS & Hr & Hc & Ho & _).
  pose proof (sq_t _ _ _ (oo_sq nb o HO)) as HT. pose proof (td_shape _ _ HT) as SH.
  destruct (td_in _ _ HT m n HS) as [Hm Hn].
  destruct (tile_row _ m r SH Hm Hr) as (R1 & R2 & _). destruct (tile_col _ n c SH Hn Hc) as (C1 & C2 & _).
  exists (m * d_mb (o_A o) + r), (n * d_nb (o_A o) + c). split.
  - split; [assumption|]. split; [assumption|]. rewrite R2, C2. assumption.
  - f_equal. lia.
Qed.

Lemma homeU_functional_o : forall nb o, ook nb o -> functionalZ (homeU (o_A o) (o_S o) (o_p o) (o_ld o)).
Proof.
  intros nb o HO. apply homeU_functional; [apply (sq_t _ _ _ (oo_sq nb o HO))|apply (oo_ld nb o HO)].
Qed.

Lemma homeD_functional_o : forall nb o, ook nb o -> functionalZ (homeD (o_A o) (o_S o)).
Proof. intros nb o HO. apply homeD_functional. apply (sq_t _ _ _ (oo_sq nb o HO)). Qed.

(* several homes in one block, if they agree where they meet *)
Lemma home_env_functional2 : forall env : list (Z * (Z -> Z -> Prop)),
  (forall b h h' x a a', In (b, h) env -> In (b, h') env -> h x a -> h' x a' -> a = a') ->
  functional (home_env env).
Proof.
  intros env HF [b x] [b1 a1] [b2 a2] (E1 & h1 & I1 & H1) (E2 & h2 & I2 & H2).
  cbn in *. subst b1 b2. f_equal. exact (HF b h1 h2 x a1 a2 I1 I2 H1 H2).
Qed.

Section Ops.
  Context {V : Type}.
  Variable nb : Z.
  Variables ops ins outs : list opnd.
  Hypothesis HO : forall o, In o ops -> ook nb o.
  Hypothesis HI : incl ins ops.
  Hypothesis HU : incl outs ops.
  Hypothesis HB : NoDup (map o_b ops).
  Hypothesis HP : forall o o', In o ops -> In o' ops -> fst (o_p o) <> o_b o'.
  Hypothesis HNI : NoDup ins.
  Hypothesis HNO : NoDup outs.
  Hypothesis HAO : forall o o', In o outs -> In o' outs -> o = o' \/ oapart o o'.
  Hypothesis HAI : forall o, In o ins -> In o outs \/ forall o', In o' outs -> oapart o o'.

  Lemma o_b_inj : forall o o', In o ops -> In o' ops -> o_b o = o_b o' -> o = o'.
  Proof.
    clear -HB. induction ops as [|x l IH]; intros o o' H1 H2 E; [destruct H1|].
    cbn in HB. inversion HB as [|? ? N1 N2]; subst.
    destruct H1 as [->|H1]; destruct H2 as [->|H2]; auto.
    - exfalso. apply N1. rewrite E. apply in_map. assumption.
    - exfalso. apply N1. rewrite <- E. apply in_map. assumption.
  Qed.

  Definition ops_env : list (Z * (Z -> Z -> Prop)) := (map o_homeD ops ++ map o_homeU outs)%list.

  Lemma ops_env_cases : forall b h, In (b, h) ops_env ->
    (exists o, In o ops /\ b = o_b o /\ h = homeD (o_A o) (o_S o)) \/
    (exists o, In o outs /\ b = fst (o_p o) /\ h = homeU (o_A o) (o_S o) (o_p o) (o_ld o)).
  Proof.
    intros b h H. unfold ops_env in H. apply in_app_or in H. destruct H as [H|H]; apply in_map_iff in H;
      destruct H as (o & E & Ho); injection E as <- <-; [left|right]; exists o; auto.
  Qed.

  Lemma ops_env_functional : functional (home_env ops_env).
  Proof.
    apply home_env_functional2. intros b h h' x a a' H H' Hx Hx'.
    apply ops_env_cases in H, H'.
    destruct H as [(o & Ho & Eb & ->)|(o & Ho & Eb & ->)];
      destruct H' as [(o' & Ho' & Eb' & ->)|(o' & Ho' & Eb' & ->)].
    - assert (o = o') by (apply o_b_inj; auto; congruence). subst o'.
      eapply homeD_functional_o; eauto.
    - exfalso. apply (HP o' o); auto. congruence.
    - exfalso. apply (HP o o'); auto. congruence.
    - destruct (HAO o o' Ho Ho') as [->|HX].
      + eapply homeU_functional_o; eauto.
      + exfalso. apply homeU_user with (nb := nb) in Hx; auto. apply homeU_user with (nb := nb) in Hx'; auto.
        rewrite <- Eb in Hx. rewrite <- Eb' in Hx'. eapply HX; [|exact Hx'].
        destruct Hx as (i & j & (Hi & Hj & _) & E). exists i, j. auto.
  Qed.

  Lemma ins_kgood : Forall kgood (flat_map (@o_in V) ins).
  Proof.
    apply Forall_flat_map_intro. intros o Ho. pose proof (HO o (HI o Ho)) as [Q1 Q2 Q3 Q4].
    eapply copy_in_kgood; eauto using sq_t.
  Qed.
  Lemma outs_kgood : Forall kgood (flat_map (@o_out V) outs).
  Proof.
    apply Forall_flat_map_intro. intros o Ho. pose proof (HO o (HU o Ho)) as [Q1 Q2 Q3 Q4].
    eapply copy_out_kgood; eauto using sq_t.
  Qed.

  Lemma no_home_ops : forall l, (forall o, In o ops -> fst l <> o_b o) ->
    (forall o, In o outs -> ~ o_user o l) -> ~ exists a, home_env ops_env l a.
  Proof.
    intros [b x] H1 H2 [a (E & h & Hh & Ha)]. cbn in *. apply ops_env_cases in Hh.
    destruct Hh as [(o & Ho & -> & ->)|(o & Ho & -> & ->)].
    - apply (H1 o Ho). reflexivity.
    - apply (H2 o Ho). eapply homeU_user; eauto.
  Qed.

  Lemma ins_kdecl : Forall (kdecl (home_env ops_env)) (flat_map (@o_in V) ins).
  Proof.
    apply Forall_flat_map_intro. intros o Ho. pose proof (HI o Ho) as Ho'.
    pose proof (HO o Ho') as [Q1 Q2 Q3 Q4].
    apply copy_in_kdecl with (S := o_S o); eauto using sq_t.
    - unfold ops_env. apply in_or_app. left. apply (in_map o_homeD). assumption.
    - destruct (HAI o Ho) as [HX|HX].
      + right. unfold ops_env. apply in_or_app. right. apply (in_map o_homeU). assumption.
      + left. intros l Hl. apply no_home_ops.
        * intros o' Hp. rewrite (in_user_block _ _ _ _ _ Hl). auto.
        * intros o' Hp. apply HX; assumption.
  Qed.

  Lemma outs_kdecl : Forall (kdecl (home_env ops_env)) (flat_map (@o_out V) outs).
  Proof.
    apply Forall_flat_map_intro. intros o Ho. pose proof (HU o Ho) as Ho'.
    pose proof (HO o Ho') as [Q1 Q2 Q3 Q4].
    apply copy_out_kdecl with (S := o_S o); eauto using sq_t.
    - unfold ops_env. apply in_or_app. left. apply (in_map o_homeD). assumption.
    - unfold ops_env. apply in_or_app. right. apply (in_map o_homeU). assumption.
  Qed.

  Lemma o_in_other : forall o (M : mem V) l, In o ops -> fst l <> o_b o -> krun (o_in o) M l = M l.
  Proof.
    intros o M l Ho Hl. pose proof (HO o Ho) as [Q1 Q2 Q3 Q4].
    eapply copy_in_frame; eauto using sq_t.
  Qed.

  Lemma ins_other : forall (M : mem V) l, (forall o, In o ins -> fst l <> o_b o) ->
    krun (flat_map o_in ins) M l = M l.
  Proof.
    clear HNI HAI. induction ins as [|o os IH]; intros M l H; cbn; [reflexivity|].
    rewrite krun_app. rewrite IH.
    - apply o_in_other; [apply HI; left; reflexivity|]. apply H. left; reflexivity.
    - intros x Hx. apply HI. right; assumption.
    - intros x Hx. apply H. right; assumption.
  Qed.

  Lemma ins_el : forall (M : mem V) o i j, In o ins -> o_el o i j ->
    el (krun (flat_map o_in ins) M) (o_b o) (o_A o) i j = ul M (o_p o) (o_ld o) i j.
  Proof.
    clear HAI. induction ins as [|x os IH]; intros M o i j Ho Hij; [destruct Ho|].
    cbn [flat_map]. rewrite krun_app. inversion HNI as [|? ? N1 N2]; subst.
    assert (HI' : incl os ops) by (intros y Hy; apply HI; right; assumption).
    assert (Hx : In x ops) by (apply HI; left; reflexivity).
    destruct Ho as [->|Ho].
    - pose proof (HO o Hx) as [Q1 Q2 Q3 Q4]. unfold el.
      assert (HX : forall y, In y os -> o_b o <> o_b y).
      { intros y Hy E. apply N1. replace o with y; auto. symmetry. apply o_b_inj; auto. }
      clear IH.
      assert (G : forall os (M : mem V), incl os ops -> (forall y, In y os -> o_b o <> o_b y) ->
         krun (flat_map o_in os) M (o_b o, elem_off (o_A o) i j) = M (o_b o, elem_off (o_A o) i j)).
      { clear -HO HP. induction os as [|y ys IH]; intros M HI' HX; cbn; [reflexivity|]. rewrite krun_app, IH.
        - apply o_in_other; [apply HI'; left; reflexivity|]. apply HX. left; reflexivity.
        - intros z Hz; apply HI'; right; assumption.
        - intros z Hz; apply HX; right; assumption. }
      rewrite G by assumption. destruct Hij as (I1 & I2 & I3).
      change (el (krun (o_in o) M) (o_b o) (o_A o) i j = ul M (o_p o) (o_ld o) i j).
      unfold o_in. apply copy_in_spec with (S := o_S o); auto; apply (sq_t nb); assumption.
    - rewrite IH; auto. unfold ul. apply o_in_other; auto. cbn. auto.
  Qed.

  Lemma o_out_other : forall o (M : mem V) l, In o ops -> ~ o_user o l -> krun (o_out o) M l = M l.
  Proof.
    intros o M l Ho Hl. pose proof (HO o Ho) as [Q1 Q2 Q3 Q4].
    eapply copy_out_frame; eauto using sq_t.
    intros i j Hi Hj HS E. apply Hl. exists i, j. split; [|assumption]. repeat split; auto; lia.
  Qed.

  Lemma outs_other : forall (M : mem V) l, (forall o, In o outs -> ~ o_user o l) ->
    krun (flat_map o_out outs) M l = M l.
  Proof.
    clear HNO HAO HAI. induction outs as [|o os IH]; intros M l H; cbn; [reflexivity|].
    rewrite krun_app. rewrite IH.
    - apply o_out_other; [apply HU; left; reflexivity|]. apply H. left; reflexivity.
    - intros x Hx. apply HU. right; assumption.
    - intros x Hx. apply H. right; assumption.
  Qed.

  Lemma outs_ul : forall (M : mem V) o i j, In o outs -> o_el o i j ->
    ul (krun (flat_map o_out outs) M) (o_p o) (o_ld o) i j = el M (o_b o) (o_A o) i j.
  Proof.
    clear HAI. induction outs as [|x os IH]; intros M o i j Ho Hij; [destruct Ho|].
    cbn [flat_map]. rewrite krun_app. inversion HNO as [|? ? N1 N2]; subst.
    assert (HU' : incl os ops) by (intros y Hy; apply HU; right; assumption).
    assert (Hx : In x ops) by (apply HU; left; reflexivity).
    destruct Ho as [->|Ho].
    - pose proof (HO o Hx) as [Q1 Q2 Q3 Q4]. unfold ul at 1.
      assert (HX : forall y, In y os -> ~ o_user y (fst (o_p o), snd (o_p o) + i + j * o_ld o)).
      { intros y Hy E. destruct (HAO o y) as [->|HZ]; [left; reflexivity|right; assumption|contradiction|].
        destruct Hij as (I1 & I2 & I3). eapply HZ; [|exact E]. exists i, j. auto. }
      assert (G : forall os (M : mem V) l, incl os ops -> (forall y, In y os -> ~ o_user y l) ->
         krun (flat_map o_out os) M l = M l).
      { clear -HO. induction os as [|y ys IH]; intros M l HI' HX; cbn; [reflexivity|]. rewrite krun_app, IH.
        - apply o_out_other; [apply HI'; left; reflexivity|]. apply HX. left; reflexivity.
        - intros z Hz; apply HI'; right; assumption.
        - intros z Hz; apply HX; right; assumption. }
      rewrite G by assumption. destruct Hij as (I1 & I2 & I3).
      change (ul (krun (o_out o) M) (o_p o) (o_ld o) i j = el M (o_b o) (o_A o) i j).
      unfold o_out. apply copy_out_spec with (S := o_S o); auto; apply (sq_t nb); assumption.
    - rewrite IH; auto.
      + unfold el. apply o_out_other; auto. intros (i' & j' & _ & E). injection E as E _.
        apply (HP x o); auto.
      + intros o1 o2 H1 H2. apply HAO; right; assumption.
  Qed.

  Variable comp : list (ktask V).
  Hypothesis CG : Forall kgood comp.

  Lemma ops_region_linked : forall M, klinked (flat_map o_in ins ++ comp ++ flat_map o_out outs) ->
    region_ensures (flat_map o_in ins ++ comp ++ flat_map o_out outs) M (fun M' => exists M3,
      (forall o i j, In o ins -> o_el o i j ->
         el M3 (o_b o) (o_A o) i j = ul M (o_p o) (o_ld o) i j) /\
      (forall l, (forall o, In o ins -> fst l <> o_b o) -> M3 l = M l) /\
      (forall o i j, In o outs -> o_el o i j ->
         ul M' (o_p o) (o_ld o) i j = el (krun comp M3) (o_b o) (o_A o) i j) /\
      (forall l, (forall o, In o outs -> ~ o_user o l) -> M' l = krun comp M3 l)).
  Proof.
    intros M HK. apply region_intro; [| exact HK |].
    - rewrite !Forall_app. split; [apply ins_kgood|]. split; [assumption|apply outs_kgood].
    - intros M' E. rewrite !krun_app in E. exists (krun (flat_map o_in ins) M).
      split; [intros; apply ins_el; assumption|].
      split; [intros; apply ins_other; assumption|].
      split.
      + intros o i j Ho Hij. rewrite <- outs_ul by assumption. unfold ul. apply E.
      + intros l Hl. rewrite E. apply outs_other. assumption.
  Qed.

  Hypothesis CD : forall env, (forall o, In o ops -> In (o_homeD o) env) -> Forall (kdecl (home_env env)) comp.

  Lemma ops_region : forall M,
    region_ensures (flat_map o_in ins ++ comp ++ flat_map o_out outs) M (fun M' => exists M3,
      (forall o i j, In o ins -> o_el o i j ->
         el M3 (o_b o) (o_A o) i j = ul M (o_p o) (o_ld o) i j) /\
      (forall l, (forall o, In o ins -> fst l <> o_b o) -> M3 l = M l) /\
      (forall o i j, In o outs -> o_el o i j ->
         ul M' (o_p o) (o_ld o) i j = el (krun comp M3) (o_b o) (o_A o) i j) /\
      (forall l, (forall o, In o outs -> ~ o_user o l) -> M' l = krun comp M3 l)).
  Proof.
    intros M. apply ops_region_linked.
    apply korders_klinked. apply (kdecl_korders V (home_env ops_env)); [apply ops_env_functional|].
    rewrite !Forall_app. split; [apply ins_kdecl|]. split; [|apply outs_kdecl].
    apply CD. intros o Ho. unfold ops_env. apply in_or_app. left. apply in_map. assumption.
  Qed.
End Ops.

(* the two kinds of operands *)
Definition ge_opnd (b : Z) (A : desc) (p : loc) (ld : Z) : opnd :=
  mkopnd b A (in_tiles A) (idx_all A) p ld.
Definition tr_opnd (b : Z) (A : desc) (p : loc) (ld : Z) : opnd :=
  mkopnd b A (in_tri A) (idx_tri A) p ld.

Lemma ge_opnd_in : forall V b A p ld, @o_in V (ge_opnd b A p ld) = pzge2desc p ld b A.
Proof. intros. symmetry. apply pzge2desc_eq. Qed.
Lemma ge_opnd_out : forall V b A p ld, @o_out V (ge_opnd b A p ld) = pzdesc2ge b A p ld.
Proof. intros. symmetry. apply pzdesc2ge_eq. Qed.
Lemma tr_opnd_in : forall V b A p ld, @o_in V (tr_opnd b A p ld) = pztr2desc p ld b A.
Proof. intros. symmetry. apply pztr2desc_eq. Qed.
Lemma tr_opnd_out : forall V b A p ld, @o_out V (tr_opnd b A p ld) = pzdesc2tr b A p ld.
Proof. intros. symmetry. apply pzdesc2tr_eq. Qed.

Lemma ge_opnd_ok : forall nb b A p ld, sq nb A (in_tiles A) -> d_m A <= ld -> ook nb (ge_opnd b A p ld).
Proof. intros. constructor; cbn; auto. - apply idx_all_in. - apply idx_all_NoDup. Qed.

Lemma ge_opnd_el : forall nb b A p ld i j, sq nb A (in_tiles A) ->
  0 <= i < d_m A -> 0 <= j < d_n A -> o_el (ge_opnd b A p ld) i j.
Proof.
  intros nb b A p ld i j HQ Hi Hj. split; [assumption|]. split; [assumption|]. cbn.
  apply in_tiles_pos; auto. apply (td_shape _ _ (sq_t _ _ _ HQ)).
Qed.

Lemma ge_opnd_user : forall b A p ld l, o_user (ge_opnd b A p ld) l -> in_user p ld (d_m A) (d_n A) l.
Proof. intros b A p ld l (i & j & (H1 & H2 & _) & E). exists i, j. auto. Qed.

(* one operand is read and written, the others are only read *)
Lemma std_region : forall V nb (xs : list opnd) (c : opnd) (comp : list (ktask V)),
  (forall o, In o (c :: xs) -> ook nb o) ->
  NoDup (map o_b (c :: xs)) ->
  (forall o, In o (c :: xs) -> ~ In (fst (o_p o)) (map o_b (c :: xs))) ->
  (forall o, In o xs -> oapart o c) ->
  Forall kgood comp ->
  (forall env, (forall o, In o (c :: xs) -> In (o_homeD o) env) -> Forall (kdecl (home_env env)) comp) ->
  forall M,
    region_ensures (flat_map o_in xs ++ o_in c ++ comp ++ o_out c) M (fun M' => exists M3,
      (forall o i j, In o (c :: xs) -> o_el o i j ->
         el M3 (o_b o) (o_A o) i j = ul M (o_p o) (o_ld o) i j) /\
      (forall l, ~ In (fst l) (map o_b (c :: xs)) -> M3 l = M l) /\
      (forall i j, o_el c i j ->
         ul M' (o_p c) (o_ld c) i j = el (krun comp M3) (o_b c) (o_A c) i j) /\
      (forall l, ~ o_user c l -> M' l = krun comp M3 l)).
Proof.
  intros V nb xs c comp HO HB HP HA CG CD M.
  assert (E : flat_map (@o_in V) xs ++ o_in c ++ comp ++ o_out c
              = flat_map o_in (xs ++ [c]) ++ comp ++ flat_map o_out [c]).
  { rewrite flat_map_app. cbn [flat_map]. rewrite !app_nil_r, <- !app_assoc. reflexivity. }
  rewrite E. clear E.
  assert (ND : NoDup (xs ++ [c])).
  { cbn in HB. inversion HB as [|? ? N1 N2]; subst. apply NoDup_app_intro.
    - eapply NoDup_map_inv; eauto.
    - repeat constructor; auto.
    - intros x Hx [->|[]]. apply N1. apply in_map. assumption. }
  assert (SUB : forall o, In o (xs ++ [c]) <-> In o (c :: xs)).
  { intros o. rewrite in_app_iff. cbn. tauto. }
  eapply region_mono; [|apply (ops_region nb (c :: xs) (xs ++ [c]) [c] HO)]; auto.
  - intros M' (M3 & H1 & H2 & H3 & H4). exists M3. split; [|split; [|split]].
    + intros o i j Ho. apply H1. apply SUB. assumption.
    + intros l Hl. apply H2. intros o Ho E. apply Hl. rewrite E. apply in_map. apply SUB. assumption.
    + intros i j. apply H3. left; reflexivity.
    + intros l Hl. apply H4. intros o [<-|[]]. assumption.
  - intros o Ho. apply SUB. assumption.
  - intros o [<-|[]]. left; reflexivity.
  - intros o o' Ho Ho' E. apply (HP o Ho). rewrite E. apply in_map. assumption.
  - repeat constructor; auto.
  - intros o o' [<-|[]] [<-|[]]. left; reflexivity.
  - intros o Ho. apply SUB in Ho. destruct Ho as [<-|Ho]; [left; left; reflexivity|].
    right. intros o' [<-|[]]. apply HA; assumption.
Qed.
