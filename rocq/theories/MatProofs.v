From Coq Require Import ZArith List Bool Lia.
From Verif Require Import Base NumModel NumProofs TaskModel TaskSpec TaskProofs DescModel DescSpec
  DescProofs MatModel MatSpec.
Import ListNotations.
Open Scope Z_scope.

(* ------------------------------------------------------------------ *)
(* flat regions                                                          *)

Lemma at_inj : forall p ld i j i' j', 0 <= i < ld -> 0 <= i' < ld ->
  at_ p ld i j = at_ p ld i' j' -> i = i' /\ j = j'.
Proof.
  intros p ld i j i' j' Hi Hi' H. unfold at_ in H. injection H as H.
  assert (j = j') by nia. subst. lia.
Qed.

Lemma mset_in : forall V p ld m n P f (M : mem V) i j, 0 <= i < m -> 0 <= j < n -> m <= ld ->
  mset p ld m n P f M (at_ p ld i j) = if P i j then f i j else M (at_ p ld i j).
Proof.
  intros V p ld m n P f M i j Hi Hj Hm. unfold mset, at_ at 1 2 3 4 5 6 7 8. cbn [fst snd].
  replace (snd p + i + j * ld - snd p) with (j * ld + i) by lia.
  assert (E1 : (j * ld + i) mod ld = i) by (apply mod_eq with j; lia).
  assert (E2 : (j * ld + i) / ld = j) by (apply div_eq with i; lia).
  rewrite E1, E2. rewrite Z.eqb_refl.
  replace (0 <? ld) with true by (symmetry; apply Z.ltb_lt; lia).
  replace (i <? m) with true by (symmetry; apply Z.ltb_lt; lia).
  replace (0 <=? j) with true by (symmetry; apply Z.leb_le; lia).
  replace (j <? n) with true by (symmetry; apply Z.ltb_lt; lia).
  reflexivity.
Qed.

Lemma mset_out : forall V p ld m n P f (M : mem V) l, ~ reg p ld m n P l ->
  mset p ld m n P f M l = M l.
Proof.
  intros V p ld m n P f M l H. unfold mset.
  destruct (_ && _) eqn:E; [|reflexivity]. exfalso. apply H.
  rewrite !andb_true_iff, !Z.ltb_lt, Z.eqb_eq, Z.leb_le in E.
  destruct E as [[[[[E1 E2] E3] E4] E5] E6].
  destruct (div_mod_pos (snd l - snd p) ld E2) as [D1 D2].
  exists ((snd l - snd p) mod ld), ((snd l - snd p) / ld).
  repeat split; try lia; auto.
  unfold at_. destruct l as [b o]. cbn in *. subst. f_equal. lia.
Qed.

(* where mset writes, the value depends only on f; elsewhere nothing changes *)
Lemma mset_val : forall V p ld m n P f (M : mem V) l, m <= ld -> reg p ld m n P l ->
  exists i j, 0 <= i < m /\ 0 <= j < n /\ P i j = true /\ l = at_ p ld i j /\
    mset p ld m n P f M l = f i j.
Proof.
  intros V p ld m n P f M l Hm (i & j & Hi & Hj & HP & ->).
  exists i, j. repeat split; auto; try lia. rewrite mset_in by lia. rewrite HP. reflexivity.
Qed.

Lemma reg_dec : forall p ld m n P l, m <= ld -> {reg p ld m n P l} + {~ reg p ld m n P l}.
Proof.
  intros p ld m n P l Hm.
  set (i := (snd l - snd p) mod ld). set (j := (snd l - snd p) / ld).
  destruct ((fst l =? fst p) && (0 <? ld) && (i <? m) && (0 <=? j) && (j <? n) && P i j) eqn:E.
  - left. rewrite !andb_true_iff, !Z.ltb_lt, Z.eqb_eq, Z.leb_le in E.
    destruct E as [[[[[E1 E2] E3] E4] E5] E6].
    destruct (div_mod_pos (snd l - snd p) ld E2) as [D1 D2].
    exists i, j. unfold i, j in *. repeat split; try lia; auto.
    unfold at_. destruct l as [b o]. cbn in *. subst. f_equal. lia.
  - right. intros (i' & j' & Hi & Hj & HP & ->).
    assert (Ei : i = i') by (unfold i, at_; cbn [fst snd]; apply mod_eq with j'; lia).
    assert (Ej : j = j') by (unfold j, at_; cbn [fst snd]; apply div_eq with i'; lia).
    clearbody i j. subst i j. cbn [fst at_] in E. rewrite Z.eqb_refl, HP in E.
    replace (0 <? ld) with true in E by (symmetry; apply Z.ltb_lt; lia).
    replace (i' <? m) with true in E by (symmetry; apply Z.ltb_lt; lia).
    replace (0 <=? j') with true in E by (symmetry; apply Z.leb_le; lia).
    replace (j' <? n) with true in E by (symmetry; apply Z.ltb_lt; lia).
    discriminate.
Qed.

Lemma rd_meq : forall V (M M' : mem V) p ld i j, meq M M' -> rd M p ld i j = rd M' p ld i j.
Proof. intros. apply H. Qed.

(* ------------------------------------------------------------------ *)
(* kernels touch only their footprint                                    *)

Definition ksound {V} (k : ktask V) : Prop :=
  (forall M l, ~ k_writes k l -> k_fun k M l = M l) /\
  (forall M M' l, (forall x, k_reads k x -> M x = M' x) -> k_writes k l ->
     k_fun k M l = k_fun k M' l).

Lemma mset_ksound : forall V deps p ld m n P (f : mem V -> Z -> Z -> V) (R : loc -> Prop),
  m <= ld ->
  (forall M M' i j, 0 <= i < m -> 0 <= j < n -> P i j = true ->
     (forall x, R x -> M x = M' x) -> f M i j = f M' i j) ->
  ksound (mkktask deps (fun M => mset p ld m n P (f M) M) R (reg p ld m n P)).
Proof.
  intros V deps p ld m n P f R Hm HF. split; cbn.
  - intros M l H. apply mset_out; assumption.
  - intros M M' l H (i & j & Hi & Hj & HP & ->). rewrite !mset_in by lia. rewrite HP.
    apply HF; auto.
Qed.

Lemma krun_app : forall V (a b : list (ktask V)) M, krun (a ++ b) M = krun b (krun a M).
Proof. induction a as [|k a IH]; intros b M; cbn; auto. Qed.

Definition kwrites {V} (ks : list (ktask V)) (l : loc) : Prop := exists k, In k ks /\ k_writes k l.
Definition kreads {V} (ks : list (ktask V)) (l : loc) : Prop := exists k, In k ks /\ k_reads k l.

Lemma krun_frame : forall V (ks : list (ktask V)) M l, Forall ksound ks -> ~ kwrites ks l ->
  krun ks M l = M l.
Proof.
  intros V. induction ks as [|k ks IH]; intros M l HS HW; cbn; [reflexivity|].
  inversion HS as [|? ? H1 H2]; subst. rewrite IH; auto.
  - apply H1. intro W. apply HW. exists k. split; [left; reflexivity|assumption].
  - intros (k' & H3 & H4). apply HW. exists k'. split; [right; assumption|assumption].
Qed.

(* If two memories agree on everything a list of tasks reads, and on l, they agree on l
   after the tasks. Decidability of the write sets is not needed classically: we ask for it. *)
Definition kdecw {V} (k : ktask V) : Prop := forall l, k_writes k l \/ ~ k_writes k l.

Lemma krun_local : forall V (ks : list (ktask V)) (S : loc -> Prop) M M',
  Forall ksound ks -> Forall kdecw ks ->
  (forall k l, In k ks -> k_reads k l -> S l) ->
  (forall l, S l -> M l = M' l) -> forall l, S l -> krun ks M l = krun ks M' l.
Proof.
  intros V. induction ks as [|k ks IH]; intros S M M' HS HD HR HE l Hl; cbn; [auto|].
  inversion HS as [|? ? H1 H2]; subst. inversion HD as [|? ? D1 D2]; subst.
  apply IH with (S := S); auto.
  - intros k' x Hk. apply HR. right; assumption.
  - intros x Hx. destruct (D1 x) as [W|W].
    + apply H1; auto. intros y Hy. apply HE. eapply HR; eauto. left; reflexivity.
    + destruct H1 as [F _]. rewrite !F by assumption. auto.
Qed.

(* Independent groups of tasks: the result at a location written by one group is what that
   group alone computes from the initial memory. *)
Lemma krun_groups : forall V I (g : I -> list (ktask V)) (idx : list I) M i l,
  (forall i, In i idx -> Forall ksound (g i) /\ Forall kdecw (g i)) ->
  NoDup idx ->
  (forall i i' x, In i idx -> In i' idx -> i <> i' -> kwrites (g i') x ->
     ~ kwrites (g i) x /\ ~ kreads (g i) x) ->
  In i idx -> kwrites (g i) l \/ kreads (g i) l ->
  krun (flat_map g idx) M l = krun (g i) M l.
Proof.
  intros V I g idx. induction idx as [|a idx IH]; intros M i l HS HN HX Hi Hl; [destruct Hi|].
  cbn. rewrite krun_app. inversion HN as [|? ? N1 N2]; subst.
  assert (FS : Forall ksound (flat_map g idx)).
  { apply Forall_forall. intros k Hk. apply in_flat_map in Hk. destruct Hk as (b & Hb & Hk).
    destruct (HS b (or_intror Hb)) as [Q _]. rewrite Forall_forall in Q. auto. }
  destruct Hi as [->|Hi].
  - rewrite krun_frame; auto. intros (k & Hk & Wk). apply in_flat_map in Hk.
    destruct Hk as (b & Hb & Hk).
    destruct (HX i b l) as [Q1 Q2]; [left; reflexivity|right; assumption| |exists k; auto|].
    + intros ->. contradiction.
    + tauto.
  - assert (Hai : a <> i) by (intros ->; contradiction).
    rewrite (IH (krun (g a) M) i l); auto.
    + destruct (HS i (or_intror Hi)) as [Q1 Q2].
      apply krun_local with (S := fun x => kwrites (g i) x \/ kreads (g i) x); auto.
      * intros k x Hk Hx. right. exists k. auto.
      * intros x Hx. apply krun_frame; [apply HS; left; reflexivity|].
        intro W. destruct (HX i a x) as [Q3 Q4]; auto; [right; assumption|left; reflexivity|tauto].
    + intros j Hj. apply HS. right; assumption.
    + intros j j' x Hj Hj'. apply HX; right; assumption.
Qed.

Lemma flat_map_frame : forall V I (g : I -> list (ktask V)) (idx : list I) M l,
  (forall i, In i idx -> Forall ksound (g i)) ->
  (forall i, In i idx -> ~ kwrites (g i) l) ->
  krun (flat_map g idx) M l = M l.
Proof.
  intros V I g idx M l HS HW. apply krun_frame.
  - apply Forall_forall. intros k Hk. apply in_flat_map in Hk. destruct Hk as (b & Hb & Hk).
    specialize (HS b Hb). rewrite Forall_forall in HS. auto.
  - intros (k & Hk & Wk). apply in_flat_map in Hk. destruct Hk as (b & Hb & Hk).
    apply (HW b Hb). exists k. auto.
Qed.

(* ------------------------------------------------------------------ *)
(* dependences: every location has a home, the address that stands for its tile         *)

Definition functional (home : loc -> loc -> Prop) : Prop :=
  forall l a a', home l a -> home l a' -> a = a'.

Definition kdecl {V} (home : loc -> loc -> Prop) (k : ktask V) : Prop :=
  (forall l, k_reads k l -> (exists a, home l a) ->
     exists d, In d (k_deps k) /\ home l (dep_addr d)) /\
  (forall l, k_writes k l ->
     exists d, In d (k_deps k) /\ home l (dep_addr d) /\ dep_type d <> DepIn).

Lemma kdecl_korders : forall V home (ks : list (ktask V)), functional home ->
  Forall (kdecl home) ks -> korders ks.
Proof.
  intros V home ks HF. induction ks as [|k ks IH]; intros HD; constructor.
  - inversion HD as [|? ? [Rk Wk] H2]; subst. intros k' Hk' [l HC].
    rewrite Forall_forall in H2. destruct (H2 k' Hk') as [Rk' Wk'].
    destruct HC as [[A [B|B]]|[A B]].
    + destruct (Wk l A) as (d & D1 & D2 & D3). destruct (Rk' l B) as (d' & D1' & D2'); [eauto|].
      exists d, d'. repeat split; auto; [eapply HF; eauto|tauto].
    + destruct (Wk l A) as (d & D1 & D2 & D3). destruct (Wk' l B) as (d' & D1' & D2' & D3').
      exists d, d'. repeat split; auto; [eapply HF; eauto|tauto].
    + destruct (Wk' l B) as (d' & D1' & D2' & D3'). destruct (Rk l A) as (d & D1 & D2); [eauto|].
      exists d, d'. repeat split; auto; [eapply HF; eauto|tauto].
  - apply IH. inversion HD; assumption.
Qed.

(* one home relation per block *)
Definition home_env (env : list (Z * (Z -> Z -> Prop))) (l a : loc) : Prop :=
  fst a = fst l /\ exists h, In (fst l, h) env /\ h (snd l) (snd a).

Definition functionalZ (h : Z -> Z -> Prop) : Prop := forall o a a', h o a -> h o a' -> a = a'.

Lemma home_env_functional : forall env, NoDup (map fst env) ->
  (forall b h, In (b, h) env -> functionalZ h) -> functional (home_env env).
Proof.
  intros env HN HF [b o] [b1 a1] [b2 a2] (E1 & h1 & I1 & H1) (E2 & h2 & I2 & H2).
  cbn in *. subst. f_equal.
  assert (h1 = h2).
  { clear -HN I1 I2. induction env as [|[x h] env IH]; [destruct I1|].
    cbn in HN. inversion HN as [|? ? N1 N2]; subst.
    destruct I1 as [I1|I1]; destruct I2 as [I2|I2]; auto.
    - congruence.
    - injection I1 as -> ->. exfalso. apply N1. apply in_map_iff. exists (b, h2). auto.
    - injection I2 as -> ->. exfalso. apply N1. apply in_map_iff. exists (b, h1). auto. }
  subst. eapply HF; eauto.
Qed.

(* ------------------------------------------------------------------ *)
(* tiled matrices                                                        *)

Definition in_tiles (A : desc) (m n : Z) : Prop := 0 <= m < d_mt A /\ 0 <= n < d_nt A.

(* A stores the tiles in S apart from one another *)
Record tiled (A : desc) (S : Z -> Z -> Prop) : Prop := {
  td_shape : shape_ok A;
  td_in : forall m n, S m n -> in_tiles A m n;
  td_ld : forall m n, S m n -> tile_mview A m <= tile_mmain A m;
  td_apart : forall m n m' n' r c r' c', S m n -> S m' n' ->
    0 <= r < tile_mview A m -> 0 <= c < tile_nview A n ->
    0 <= r' < tile_mview A m' -> 0 <= c' < tile_nview A n' ->
    tile_addr A m n + r + c * tile_mmain A m = tile_addr A m' n' + r' + c' * tile_mmain A m' ->
    m = m' /\ n = n' /\ r = r' /\ c = c' }.

(* the home of an element offset is the address of its tile *)
Definition homeD (A : desc) (S : Z -> Z -> Prop) (o a : Z) : Prop :=
  exists m n r c, S m n /\ 0 <= r < tile_mview A m /\ 0 <= c < tile_nview A n /\
    o = tile_addr A m n + r + c * tile_mmain A m /\ a = tile_addr A m n.

Lemma homeD_functional : forall A S, tiled A S -> functionalZ (homeD A S).
Proof.
  intros A S H o a a' (m & n & r & c & H1 & H2 & H3 & H4 & H5) (m' & n' & r' & c' & H1' & H2' & H3' & H4' & H5').
  subst. destruct (td_apart A S H m n m' n' r c r' c') as (-> & -> & _); auto.
Qed.

Lemma dense_tiled : forall A, gen_ok A -> tiled A (in_tiles A).
Proof.
  intros A G. pose proof (gk_shape A G) as SH. constructor; auto.
  - intros m n [Hm Hn]. apply mmain_ge_mview; auto. rewrite (gk_type A G). discriminate.
  - intros m n m' n' r c r' c' [Hm Hn] [Hm' Hn'] Hr Hc Hr' Hc' E.
    rewrite <- !elem_off_tile in E by assumption.
    destruct (tile_row A m r SH Hm Hr) as (R1 & R2 & R3).
    destruct (tile_row A m' r' SH Hm' Hr') as (R1' & R2' & R3').
    destruct (tile_col A n c SH Hn Hc) as (C1 & C2 & C3).
    destruct (tile_col A n' c' SH Hn' Hc') as (C1' & C2' & C3').
    apply gen_ok_inj in E; auto. destruct E as [E1 E2].
    rewrite E1 in R2, R3. rewrite E2 in C2, C3. repeat split; congruence.
Qed.

Section Tiled.
  Context {V : Type}.
  Variables (A : desc) (S : Z -> Z -> Prop) (b : Z).
  Hypothesis HT : tiled A S.

  Lemma el_tile : forall (M : mem V) m n r c, S m n -> 0 <= r < tile_mview A m -> 0 <= c < tile_nview A n ->
    rd M (tptr b A m n) (tile_mmain A m) r c = el M b A (m * d_mb A + r) (n * d_nb A + c).
  Proof.
    intros M m n r c HS Hr Hc. destruct (td_in A S HT m n HS).
    unfold rd, at_, tptr, el. cbn [fst snd]. rewrite elem_off_tile; auto. apply (td_shape A S HT).
  Qed.

  Lemma el_other_block : forall (M : mem V) p ld m n P f i j, fst p <> b ->
    el (mset p ld m n P f M) b A i j = el M b A i j.
  Proof.
    intros M p ld m n P f i j H. unfold el. apply mset_out.
    intros (x & y & _ & _ & _ & E). unfold at_ in E. injection E as E _. congruence.
  Qed.

  (* reading an element after a kernel wrote (part of) tile (m,n) *)
  Lemma el_mset : forall (M : mem V) m n P f i j, S m n -> S (i / d_mb A) (j / d_nb A) ->
    0 <= i < d_m A -> 0 <= j < d_n A ->
    el (mset (tptr b A m n) (tile_mmain A m) (tile_mview A m) (tile_nview A n) P f M) b A i j
    = if (i / d_mb A =? m) && (j / d_nb A =? n) && P (i mod d_mb A) (j mod d_nb A)
      then f (i mod d_mb A) (j mod d_nb A) else el M b A i j.
  Proof.
    intros M m n P f i j HS HS' Hi Hj.
    pose proof (td_shape A S HT) as SH.
    destruct (td_in A S HT m n HS) as [Hm Hn].
    destruct (row_tile A i SH Hi) as [R1 R2]. destruct (col_tile A j SH Hj) as [C1 C2].
    assert (HL := td_ld A S HT m n HS).
    unfold el, elem_off. set (im := i / d_mb A) in *. set (jn := j / d_nb A) in *.
    destruct ((im =? m) && (jn =? n)) eqn:E.
    - apply andb_true_iff in E. rewrite !Z.eqb_eq in E. destruct E as [-> ->].
      replace (b, tile_addr A m n + i mod d_mb A + j mod d_nb A * tile_mmain A m)
        with (at_ (tptr b A m n) (tile_mmain A m) (i mod d_mb A) (j mod d_nb A)) by reflexivity.
      rewrite mset_in by lia. reflexivity.
    - rewrite mset_out; [reflexivity|].
      intros (r & c & Hr & Hc & _ & E2). unfold at_, tptr in E2. cbn [fst snd] in E2.
      injection E2 as E2.
      destruct (td_apart A S HT im jn m n (i mod d_mb A) (j mod d_nb A) r c) as (Q1 & Q2 & _); auto.
      rewrite Q1, Q2, !Z.eqb_refl in E. discriminate.
  Qed.

  (* a tile region lives in the home of its address *)
  Lemma reg_home : forall m n P l, S m n ->
    reg (tptr b A m n) (tile_mmain A m) (tile_mview A m) (tile_nview A n) P l ->
    fst l = b /\ homeD A S (snd l) (tile_addr A m n).
  Proof.
    intros m n P l HS (r & c & Hr & Hc & _ & ->). split; [reflexivity|].
    exists m, n, r, c. repeat split; auto; lia.
  Qed.

  Lemma reg_tile_apart : forall m n m' n' P Q l, S m n -> S m' n' ->
    reg (tptr b A m n) (tile_mmain A m) (tile_mview A m) (tile_nview A n) P l ->
    reg (tptr b A m' n') (tile_mmain A m') (tile_mview A m') (tile_nview A n') Q l ->
    m = m' /\ n = n'.
  Proof.
    intros m n m' n' P Q l HS HS' (r & c & Hr & Hc & _ & ->) (r' & c' & Hr' & Hc' & _ & E).
    unfold at_, tptr in E. cbn [fst snd] in E. injection E as E.
    destruct (td_apart A S HT m n m' n' r c r' c') as (Q1 & Q2 & _); auto.
  Qed.
End Tiled.

Lemma reg_sub : forall p ld m n P m' n' Q l, m <= m' -> n <= n' ->
  (forall i j, P i j = true -> Q i j = true) -> reg p ld m n P l -> reg p ld m' n' Q l.
Proof.
  intros p ld m n P m' n' Q l Hm Hn HP (i & j & Hi & Hj & H & E).
  exists i, j. repeat split; auto; lia.
Qed.

Lemma reg_block : forall p ld m n P l, reg p ld m n P l -> fst l = fst p.
Proof. intros p ld m n P l (i & j & _ & _ & _ & ->). reflexivity. Qed.
