(* Regions of kernels whose footprint is finite. *)
From Coq Require Import ZArith List Bool Lia.
From Verif Require Import Base NumModel NumProofs TaskModel TaskSpec TaskProofs DescModel
  MatModel MatProofs.
Import ListNotations.
Open Scope Z_scope.

Definition finite_set (P : loc -> Prop) : Prop := exists L : list loc, forall l, In l L <-> P l.

(* a kernel that touches only its footprint, which is finite *)
Record kgood {V} (k : ktask V) : Prop := {
  kg_sound : ksound k;
  kg_reads : finite_set (k_reads k);
  kg_writes : finite_set (k_writes k) }.

Lemma loc_eq_dec : forall x y : loc, {x = y} + {x <> y}.
Proof. intros [a b] [c d]. destruct (Z.eq_dec a c), (Z.eq_dec b d); try (right; congruence). left; congruence. Qed.

Lemma finite_dec : forall P l, finite_set P -> P l \/ ~ P l.
Proof. intros P l [L H]. rewrite <- H. destruct (in_dec loc_eq_dec l L); auto. Qed.

Lemma kgood_kdecw : forall V (k : ktask V), kgood k -> kdecw k.
Proof. intros V k [_ _ H] l. apply finite_dec. assumption. Qed.

Lemma finite_or : forall P Q, finite_set P -> finite_set Q -> finite_set (fun l => P l \/ Q l).
Proof. intros P Q [L H] [L' H']. exists (L ++ L'). intros l. rewrite in_app_iff, H, H'. reflexivity. Qed.

Lemma finite_none : finite_set (fun _ => False).
Proof. exists []. intros l. reflexivity. Qed.

Lemma finite_reg : forall p ld m n P, finite_set (reg p ld m n P).
Proof.
  intros p ld m n P.
  exists (flat_map (fun i => flat_map (fun j => if P i j then [at_ p ld i j] else []) (zrange 0 n)) (zrange 0 m)).
  intros l. rewrite in_flat_map. split.
  - intros (i & Hi & H). apply in_flat_map in H. destruct H as (j & Hj & H).
    apply in_zrange in Hi, Hj. destruct (P i j) eqn:E; [|destruct H].
    destruct H as [<-|[]]. exists i, j. repeat split; auto; lia.
  - intros (i & j & Hi & Hj & HP & ->). exists i. rewrite in_zrange. split; [assumption|].
    apply in_flat_map. exists j. rewrite in_zrange. split; [assumption|]. rewrite HP. left; reflexivity.
Qed.

Lemma finite_if : forall (c : bool) P Q, finite_set P -> finite_set Q ->
  finite_set (if c then P else Q).
Proof. intros [|]; auto. Qed.

Lemma kgood_implements : forall V (d : V) (k : ktask V), kgood k -> exists t, implements t k.
Proof.
  intros V d k [[S1 S2] [rs HR] [ws HW]].
  exists (mktask (k_deps k) (canonical d (k_fun k) rs ws)). apply canonical_implements.
  - intros l H. apply HR, H.
  - intros l H. apply HW, H.
  - intros m l H. apply S1. rewrite <- HW. assumption.
  - intros m m' l H H'. apply S2; [|apply HW; assumption]. intros x Hx. apply H, HR, Hx.
Qed.

Lemma kgood_all_implements : forall V (d : V) (ks : list (ktask V)), Forall kgood ks ->
  exists ts, Forall2 implements ts ks.
Proof.
  intros V d ks H. induction H as [|k ks Hk H [ts IH]]; [exists []; constructor|].
  destruct (kgood_implements V d k Hk) as [t Ht]. exists (t :: ts). constructor; assumption.
Qed.

Lemma region_intro : forall V (ks : list (ktask V)) M (Q : mem V -> Prop),
  Forall kgood ks -> klinked ks ->
  (forall M', meq M' (krun ks M) -> Q M') ->
  region_ensures ks M Q.
Proof.
  intros V ks M Q HG HK HQ. split; [apply (kgood_all_implements V (M (0, 0))); assumption|].
  intros ts s HI HS. split.
  - intros HE. apply HQ. eapply kregion_deterministic; eauto.
  - intros HE. eapply kregion_progress; eauto.
Qed.

(* the usual way: declared with respect to an environment of homes *)
Lemma region_env : forall V env (ks : list (ktask V)) M (Q : mem V -> Prop),
  NoDup (map fst env) -> (forall b h, In (b, h) env -> functionalZ h) ->
  Forall kgood ks -> Forall (kdecl (home_env env)) ks ->
  (forall M', meq M' (krun ks M) -> Q M') ->
  region_ensures ks M Q.
Proof.
  intros V env ks M Q HN HF HG HD HQ. apply region_intro; auto.
  apply korders_klinked. eapply kdecl_korders; [|exact HD]. apply home_env_functional; assumption.
Qed.

Lemma region_mono : forall V (ks : list (ktask V)) M (Q Q' : mem V -> Prop),
  (forall M', Q M' -> Q' M') -> region_ensures ks M Q -> region_ensures ks M Q'.
Proof.
  intros V ks M Q Q' H [HI HR]. split; [assumption|]. intros ts s H1 H2.
  destruct (HR ts s H1 H2). auto.
Qed.

Lemma kgood_sound : forall V (ks : list (ktask V)), Forall kgood ks -> Forall ksound ks.
Proof. intros V ks H. eapply Forall_impl; [|exact H]. intros k [S _ _]. assumption. Qed.
Lemma kgood_decw : forall V (ks : list (ktask V)), Forall kgood ks -> Forall kdecw ks.
Proof. intros V ks H. eapply Forall_impl; [|exact H]. intros k. apply kgood_kdecw. Qed.

Lemma Forall_flat_map_intro : forall A B (P : B -> Prop) (f : A -> list B) l,
  (forall x, In x l -> Forall P (f x)) -> Forall P (flat_map f l).
Proof.
  intros A B P f l H. apply Forall_forall. intros y Hy. apply in_flat_map in Hy.
  destruct Hy as (x & Hx & Hy). specialize (H x Hx). rewrite Forall_forall in H. auto.
Qed.

(* a kernel that assigns the selected part of one matrix *)
Lemma mset_kgood : forall V deps p ld m n P (f : mem V -> Z -> Z -> V) (R : loc -> Prop),
  m <= ld -> finite_set R ->
  (forall M M' i j, 0 <= i < m -> 0 <= j < n -> P i j = true ->
     (forall x, R x -> M x = M' x) -> f M i j = f M' i j) ->
  kgood (mkktask deps (fun M => mset p ld m n P (f M) M) R (reg p ld m n P)).
Proof.
  intros. constructor; [apply mset_ksound; assumption|assumption|apply finite_reg].
Qed.

(* a kernel is unaffected by memory equality *)
Lemma mset_ext : forall V p ld m n P (f f' : Z -> Z -> V) (M M' : mem V),
  meq M M' -> (forall i j, 0 <= i < m -> 0 <= j < n -> f i j = f' i j) ->
  meq (mset p ld m n P f M) (mset p ld m n P f' M').
Proof.
  intros V p ld m n P f f' M M' HM Hf l. unfold mset.
  destruct (_ && _) eqn:E; [|apply HM].
  rewrite !andb_true_iff, !Z.ltb_lt, Z.leb_le in E. apply Hf; [|lia].
  pose proof (Z.mod_pos_bound (snd l - snd p) ld). lia.
Qed.

Lemma krun_meq : forall V (ks : list (ktask V)) (M M' : mem V), Forall kgood ks ->
  meq M M' -> meq (krun ks M) (krun ks M').
Proof.
  intros V ks M M' HG HM l.
  apply (krun_local V ks (fun _ => True)); auto using kgood_sound, kgood_decw.
Qed.
