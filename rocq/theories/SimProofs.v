(* Running a list of tasks, seen through a simpler state. *)
From Coq Require Import ZArith List Bool Lia.
From Verif Require Import Base NumModel NumProofs TaskModel TaskSpec DescModel MatModel MatSpec MatProofs.
Import ListNotations.
Open Scope Z_scope.

Section Sim.
  Context {V St : Type}.
  Variable R : mem V -> St -> Prop.

  Definition sims (ks : list (ktask V)) (f : St -> St) : Prop :=
    forall M s, R M s -> R (krun ks M) (f s).

  Lemma sims_nil : sims [] (fun s => s).
  Proof. intros M s H. exact H. Qed.

  Lemma sims_one : forall k f, (forall M s, R M s -> R (k_fun k M) (f s)) -> sims [k] f.
  Proof. intros k f H M s HR. cbn. apply H. assumption. Qed.

  Lemma sims_app : forall a b f g, sims a f -> sims b g -> sims (a ++ b) (fun s => g (f s)).
  Proof. intros a b f g Ha Hb M s HR. rewrite krun_app. auto. Qed.

  Lemma sims_cons : forall k b f g, (forall M s, R M s -> R (k_fun k M) (f s)) -> sims b g ->
    sims (k :: b) (fun s => g (f s)).
  Proof. intros k b f g Hk Hb M s HR. cbn. apply Hb, Hk, HR. Qed.

  Lemma sims_flat_map : forall I (l : list I) g (f : I -> St -> St),
    (forall x, In x l -> sims (g x) (f x)) ->
    sims (flat_map g l) (fun s => fold_left (fun s x => f x s) l s).
  Proof.
    intros I l g f H. induction l as [|x l IH]; intros M s HR; cbn; [assumption|].
    rewrite krun_app. apply IH; [intros; apply H; right; assumption|].
    apply H; [left; reflexivity|assumption].
  Qed.

  Lemma sims_map : forall I (l : list I) g (f : I -> St -> St),
    (forall x, In x l -> forall M s, R M s -> R (k_fun (g x) M) (f x s)) ->
    sims (map g l) (fun s => fold_left (fun s x => f x s) l s).
  Proof.
    intros I l g f H. induction l as [|x l IH]; intros M s HR; cbn; [assumption|].
    apply IH; [intros; apply H; [right; assumption|assumption]|].
    apply H; [left; reflexivity|assumption].
  Qed.

  Lemma sims_ext : forall ks f g, (forall s, f s = g s) -> sims ks f -> sims ks g.
  Proof. intros ks f g E H M s HR. rewrite <- E. apply H. assumption. Qed.
End Sim.

(* loops in which only one iteration matters *)
Lemma fold_left_id : forall A B (f : A -> B -> A) l a, (forall x a, In x l -> f a x = a) ->
  fold_left f l a = a.
Proof.
  intros A B f l. induction l as [|x l IH]; intros a H; cbn; [reflexivity|].
  rewrite H by (left; reflexivity). apply IH. intros. apply H. right; assumption.
Qed.

Lemma fold_left_only : forall A B (f : A -> B -> A) l x0 a, NoDup l -> In x0 l ->
  (forall x a, In x l -> x <> x0 -> f a x = a) -> fold_left f l a = f a x0.
Proof.
  intros A B f l x0. induction l as [|x l IH]; intros a HN HI HX; [destruct HI|].
  inversion HN as [|? ? N1 N2]; subst. cbn. destruct HI as [->|HI].
  - apply fold_left_id. intros y b Hy. apply HX; [right; assumption|congruence].
  - rewrite HX; [|left; reflexivity|congruence]. apply IH; auto.
    intros y b Hy. apply HX. right; assumption.
Qed.

Lemma fold_left_ext_in : forall A B (f g : A -> B -> A) l a,
  (forall x a, In x l -> f a x = g a x) -> fold_left f l a = fold_left g l a.
Proof.
  intros A B f g l. induction l as [|x l IH]; intros a H; cbn; [reflexivity|].
  rewrite H by (left; reflexivity). apply IH. intros. apply H. right; assumption.
Qed.

Section Sums.
  Context {N : numbers}.
  Add Ring num_ring_sums : (nring N).

  (* sums tile by tile *)
  Lemma nsum_tiles : forall (f : Z -> N) nb K t, 0 < nb -> 0 <= K -> 0 <= t ->
    (t = 0 \/ (t - 1) * nb <= K) ->
    nsum (fun k => nsum f (k * nb) (Z.min ((k + 1) * nb) K)) 0 t = nsum f 0 (Z.min (t * nb) K).
  Proof.
    intros f nb K t Hb HK. pattern t. apply (zrange_ind_hi _ 0); clear t.
    - intros t H1 H2 _. assert (t = 0) as -> by lia. rewrite !nsum_nil by lia. reflexivity.
    - intros t H1 IH H2 H3. rewrite nsum_snoc by lia. rewrite IH by nia.
      replace (Z.min (t * nb) K) with (t * nb) by nia.
      symmetry. apply nsum_app. nia.
  Qed.

  (* accumulation with beta applied by the first step *)
  Lemma fold_accum : forall (term : Z -> N) beta t c, 0 <= t ->
    fold_left (fun c k => nadd (term k) (nmul (if k =? 0 then beta else n1) c)) (zrange 0 t) c
    = if t =? 0 then c else nadd (nsum term 0 t) (nmul beta c).
  Proof.
    intros term beta t c. pattern t. apply (zrange_ind_hi _ 0); clear t.
    - intros t H1 H2. assert (t = 0) as -> by lia. reflexivity.
    - intros t H1 IH H2. rewrite zrange_snoc by lia. rewrite fold_left_app. cbn [fold_left].
      rewrite IH by lia. rewrite nsum_snoc by lia.
      replace (t + 1 =? 0) with false by (symmetry; apply Z.eqb_neq; lia).
      destruct (t =? 0) eqn:E.
      + apply Z.eqb_eq in E. subst t. rewrite (nsum_nil N) by lia. ring.
      + ring.
  Qed.
End Sums.

(* nothing outside block b has changed, and one element has value c *)
Definition at_elem {V} (M0 : mem V) (b : Z) (A : desc) (i j : Z) (M : mem V) (c : V) : Prop :=
  (forall l, fst l <> b -> M l = M0 l) /\ el M b A i j = c.
