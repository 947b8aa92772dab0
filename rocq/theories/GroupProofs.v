(* Regions in which some conflicts are ordered through tasks that do nothing: groups of a
   working task with the empty tasks submitted before and after it. *)
From Coq Require Import ZArith List Bool Lia.
From Verif Require Import Base TaskModel TaskSpec TaskProofs DescModel MatModel MatProofs RegionProofs.
Import ListNotations.
Open Scope Z_scope.

Section Groups.
  Context {V : Type}.

  Record group := mkgroup { g_pre : list (ktask V); g_task : ktask V; g_post : list (ktask V) }.

  Definition idle (k : ktask V) : Prop := (forall l, ~ k_reads k l) /\ (forall l, ~ k_writes k l).
  Definition g_list (g : group) : list (ktask V) := g_pre g ++ g_task g :: g_post g.
  Definition g_ok (g : group) : Prop := Forall idle (g_pre g) /\ Forall idle (g_post g).

  (* tasks of the group the working task waits for, and tasks that wait for it *)
  Definition enters (g : group) (y : ktask V) : Prop :=
    y = g_task g \/ exists l1 l2, g_pre g = l1 ++ y :: l2 /\ linked y l2 (g_task g).
  Definition exits (g : group) (x : ktask V) : Prop :=
    x = g_task g \/ exists l1 l2, g_post g = l1 ++ x :: l2 /\ linked (g_task g) l1 x.

  Definition chained (g g' : group) : Prop :=
    exists x y, exits g x /\ enters g' y /\ deps_order (k_deps x) (k_deps y).

  Lemma chained_linked : forall g g' mid, chained g g' ->
    linked (g_task g) (g_post g ++ mid ++ g_pre g') (g_task g').
  Proof.
    intros g g' mid (x & y & HX & HY & D).
    assert (A : forall r, linked x (r ++ mid ++ g_pre g') (g_task g')).
    { intros r. destruct HY as [->|(l1 & l2 & -> & HL)]; [apply ln_direct; assumption|].
      replace (r ++ mid ++ l1 ++ y :: l2) with ((r ++ mid ++ l1) ++ y :: l2) by (rewrite <- !app_assoc; reflexivity).
      apply ln_trans; [apply ln_direct; assumption|assumption]. }
    destruct HX as [->|(l1 & l2 & -> & HL)]; [apply A|].
    replace ((l1 ++ x :: l2) ++ mid ++ g_pre g') with (l1 ++ x :: (l2 ++ mid ++ g_pre g')) by (rewrite <- app_assoc; reflexivity).
    apply ln_trans; [assumption|apply A].
  Qed.

  Lemma idle_conflict : forall a b, kconflict a b -> ~ idle a /\ ~ idle b.
  Proof. intros a b (l & H). unfold idle. split; intros [H1 H2]; specialize (H1 l); specialize (H2 l); tauto. Qed.

  (* an element that is not idle sits where the working tasks are *)
  Lemma busy_app : forall (xs ys l1 l2 : list (ktask V)) a, Forall idle xs -> ~ idle a ->
    xs ++ ys = l1 ++ a :: l2 -> exists r, l1 = xs ++ r /\ ys = r ++ a :: l2.
  Proof.
    induction xs as [|x xs IH]; intros ys l1 l2 a HX HA E; cbn in *.
    - exists l1. auto.
    - inversion HX as [|? ? I1 I2]; subst. destruct l1 as [|z l1]; cbn in E; injection E as E1 E2.
      + subst x. contradiction.
      + subst z. destruct (IH ys l1 l2 a I2 HA E2) as (r & -> & ->). exists r. auto.
  Qed.

  Lemma busy_group : forall gs, Forall g_ok gs -> forall l1 a l2, ~ idle a ->
    flat_map g_list gs = l1 ++ a :: l2 ->
    exists gs1 g gs2, gs = gs1 ++ g :: gs2 /\ a = g_task g /\
      l1 = flat_map g_list gs1 ++ g_pre g /\ l2 = g_post g ++ flat_map g_list gs2.
  Proof.
    intros gs H. induction H as [|g gs [G1 G2] H IH]; intros l1 a l2 HA E; [destruct l1; discriminate|].
    cbn [flat_map] in E. unfold g_list at 1 in E. rewrite <- app_assoc in E.
    destruct (busy_app (g_pre g) _ l1 l2 a G1 HA E) as (r & -> & E2). clear E. cbn in E2.
    destruct r as [|z r]; cbn in E2; injection E2 as E3 E4.
    - exists [], g, gs. repeat split; auto. cbn. rewrite app_nil_r. reflexivity.
    - subst z. destruct (busy_app (g_post g) _ r l2 a G2 HA E4) as (r2 & -> & E5).
      destruct (IH r2 a l2 HA E5) as (gs1 & g' & gs2 & -> & -> & -> & ->).
      exists (g :: gs1), g', gs2. repeat split; auto. cbn [flat_map]. unfold g_list at 2.
      rewrite <- !app_assoc. reflexivity.
  Qed.

  Definition gs_chained (gs : list group) : Prop :=
    forall gs1 g gs2 g' gs3, gs = gs1 ++ g :: gs2 ++ g' :: gs3 ->
      kconflict (g_task g) (g_task g') -> chained g g'.

  Lemma groups_klinked : forall gs, Forall g_ok gs -> gs_chained gs -> klinked (flat_map g_list gs).
  Proof.
    intros gs HG HC l1 a l2 b l3 E HX. destruct (idle_conflict a b HX) as [NA NB].
    destruct (busy_group gs HG l1 a _ NA E) as (gs1 & g & gs2 & Egs & -> & _ & E2).
    assert (HG2 : Forall g_ok gs2). { subst gs. apply Forall_app in HG. destruct HG as [_ HG]. inversion HG; assumption. }
    assert (HGp : Forall idle (g_post g)). { subst gs. apply Forall_app in HG. destruct HG as [_ HG]. inversion HG as [|? ? [_ X] _]; assumption. }
    symmetry in E2. destruct (busy_app (g_post g) _ l2 l3 b HGp NB E2) as (r & -> & E3).
    destruct (busy_group gs2 HG2 r b l3 NB E3) as (gs3 & g' & gs4 & -> & -> & -> & _).
    apply chained_linked. apply (HC gs1 g gs3 g' gs4); assumption.
  Qed.

  (* plain tasks as groups *)
  Definition single (k : ktask V) : group := mkgroup [] k [].
  Lemma single_ok : forall ks, Forall g_ok (map single ks).
  Proof. intros ks. apply Forall_forall. intros g Hg. apply in_map_iff in Hg. destruct Hg as (k & <- & _). split; constructor. Qed.
  Lemma single_list : forall ks, flat_map g_list (map single ks) = ks.
  Proof. induction ks as [|k ks IH]; cbn; [reflexivity|]. rewrite IH. reflexivity. Qed.

  (* touching a location: the home of the location is named on the way in and out *)
  Variable home : loc -> loc -> Prop.
  Hypothesis HF : functional home.

  Definition names_in (g : group) (l : loc) (strong : bool) : Prop :=
    exists y d, enters g y /\ In d (k_deps y) /\ home l (dep_addr d) /\ (strong = true -> dep_type d <> DepIn).
  Definition names_out (g : group) (l : loc) (strong : bool) : Prop :=
    exists x d, exits g x /\ In d (k_deps x) /\ home l (dep_addr d) /\ (strong = true -> dep_type d <> DepIn).

  Lemma names_chained : forall g g' l s s', names_out g l s -> names_in g' l s' -> s || s' = true -> chained g g'.
  Proof.
    intros g g' l s s' (x & d & HX & ID & HD & SD) (y & d' & HY & ID' & HD' & SD') HS.
    exists x, y. split; [assumption|]. split; [assumption|]. exists d, d'.
    split; [assumption|]. split; [assumption|]. split; [eapply HF; eauto|].
    apply orb_true_iff in HS. destruct HS as [HS|HS]; [specialize (SD HS)|specialize (SD' HS)]; tauto.
  Qed.

  Lemma kdecl_out : forall (k : ktask V) l, kdecl home k -> k_writes k l -> names_out (single k) l true.
  Proof.
    intros k l [_ W] H. destruct (W l H) as (d & D1 & D2 & D3). exists k, d.
    split; [left; reflexivity|]. auto.
  Qed.
  Lemma kdecl_out_weak : forall (k : ktask V) l, kdecl home k -> k_reads k l -> (exists a, home l a) -> names_out (single k) l false.
  Proof.
    intros k l [R _] H HA. destruct (R l H HA) as (d & D1 & D2). exists k, d.
    split; [left; reflexivity|]. split; [assumption|]. split; [assumption|discriminate].
  Qed.
  Lemma kdecl_in : forall (k : ktask V) l, kdecl home k -> k_writes k l -> names_in (single k) l true.
  Proof.
    intros k l [_ W] H. destruct (W l H) as (d & D1 & D2 & D3). exists k, d.
    split; [left; reflexivity|]. auto.
  Qed.
  Lemma kdecl_in_weak : forall (k : ktask V) l, kdecl home k -> k_reads k l -> (exists a, home l a) -> names_in (single k) l false.
  Proof.
    intros k l [R _] H HA. destruct (R l H HA) as (d & D1 & D2). exists k, d.
    split; [left; reflexivity|]. split; [assumption|]. split; [assumption|discriminate].
  Qed.

  Lemma kdecl_home : forall (k : ktask V) l, kdecl home k -> k_writes k l -> exists a, home l a.
  Proof. intros k l [_ W] H. destruct (W l H) as (d & _ & D2 & _). eauto. Qed.

  Lemma kdecl_chained : forall (k k' : ktask V), kdecl home k -> kdecl home k' -> kconflict k k' -> chained (single k) (single k').
  Proof.
    intros k k' D D' (l & [[W [R|W']]|[R W']]).
    - apply (names_chained _ _ l true false); [apply kdecl_out; assumption|apply kdecl_in_weak; auto; apply (kdecl_home k); assumption|reflexivity].
    - apply (names_chained _ _ l true true); [apply kdecl_out; assumption|apply kdecl_in; assumption|reflexivity].
    - apply (names_chained _ _ l false true); [apply kdecl_out_weak; auto; apply (kdecl_home k'); assumption|apply kdecl_in; assumption|reflexivity].
  Qed.
End Groups.
Arguments group V : clear implicits.
