(* The translation between the user's band array and band tile storage. *)
From Coq Require Import ZArith List Bool Lia.
From Verif Require Import Base NumModel NumProofs TaskModel TaskSpec TaskProofs DescModel DescSpec
  DescDriverModel DescProofs DescPackProofs DescProofs3 MatModel MatSpec MatProofs RegionProofs
  LayoutModel LayoutProofs LayoutProofs2 DriverModel DriverSpec OpProofs GemmProofs BandModel BandSpec.
Import ListNotations.
Open Scope Z_scope.

(* ------------------------------------------------------------------ *)
(* a run of assignments                                                  *)

Section Writes.
  Context {V X : Type}.
  Variable w : X -> loc.
  Variable v : mem V -> X -> V.
  Definition wstep (M : mem V) (x : X) : mem V := upd M (w x) (v M x).

  Lemma writes_out : forall xs M l, (forall x, In x xs -> w x <> l) -> fold_left wstep xs M l = M l.
  Proof.
    induction xs as [|x xs IH]; intros M l H; cbn; [reflexivity|]. rewrite IH.
    - unfold wstep, upd. destruct (loc_eqb_spec l (w x)) as [E|E]; [|reflexivity].
      exfalso. apply (H x); [left; reflexivity|]. congruence.
    - intros y Hy. apply H. right; assumption.
  Qed.

  Lemma writes_in : forall xs M x, In x xs ->
    (forall y, In y xs -> w y = w x -> y = x) ->
    (forall M', (forall l, (forall y, In y xs -> w y <> l) -> M' l = M l) -> v M' x = v M x) ->
    fold_left wstep xs M (w x) = v M x.
  Proof.
    induction xs as [|y xs IH] using rev_ind; intros M x Hx HI HV; [destruct Hx|].
    rewrite fold_left_app. cbn. unfold wstep at 1, upd. destruct (loc_eqb_spec (w x) (w y)) as [E|E].
    - rewrite (HI y); [|apply in_or_app; right; left; reflexivity|congruence].
      apply HV. intros l Hl. apply writes_out. intros z Hz. apply Hl. apply in_or_app. left; assumption.
    - apply in_app_or in Hx. destruct Hx as [Hx|[->|[]]].
      + apply IH; auto.
        * intros z Hz. apply HI. apply in_or_app. left; assumption.
        * intros M' HM. apply HV. intros l Hl. apply HM. intros z Hz. apply Hl. apply in_or_app. left; assumption.
      + congruence.
  Qed.
End Writes.

Lemma loop_pairs : forall S (g : Z -> Z -> S -> S) (lo hi : Z -> Z) a b s,
  loop a b (fun j => loop (lo j) (hi j) (g j)) s
  = fold_left (fun s p => g (fst p) (snd p) s) (pairs (zrange a b) (fun j => zrange (lo j) (hi j))) s.
Proof.
  intros S g lo hi a b. unfold loop, pairs. induction (zrange a b) as [|j js IH]; intros s; cbn; [reflexivity|].
  rewrite fold_left_app, IH. apply f_equal.
  generalize (zrange (lo j) (hi j)). intros is. revert s. induction is as [|i is IHi]; intros s; cbn; [reflexivity|].
  apply IHi.
Qed.

Lemma fold_left_ext_in : forall A B (f g : A -> B -> A) l s, (forall x s, In x l -> f s x = g s x) ->
  fold_left f l s = fold_left g l s.
Proof.
  intros A B f g l. induction l as [|x l IH]; intros s H; cbn; [reflexivity|].
  rewrite H by (left; reflexivity). apply IH. intros y t Hy. apply H. right; assumption.
Qed.

Lemma loop_split : forall S (f : Z -> S -> S) a b c s, a <= b <= c -> loop b c f (loop a b f s) = loop a c f s.
Proof. intros S f a b c s H. unfold loop. rewrite <- fold_left_app, <- zrange_app by lia. reflexivity. Qed.

Lemma loop_ext : forall S (f g : Z -> S -> S) a b s, (forall i s, a <= i < b -> f i s = g i s) -> loop a b f s = loop a b g s.
Proof. intros S f g a b s H. apply fold_left_ext_in. intros i t Hi. apply in_zrange in Hi. apply H. assumption. Qed.

Lemma kgood_ext : forall V (k : ktask V) f, (forall M l, f M l = k_fun k M l) -> kgood k ->
  kgood (mkktask (k_deps k) f (k_reads k) (k_writes k)).
Proof.
  intros V k f H [[S1 S2] G2 G3]. constructor; cbn; [|assumption|assumption]. split; cbn.
  - intros M l Hl. rewrite H. auto.
  - intros M M' l HM Hl. rewrite !H. auto.
Qed.

(* ------------------------------------------------------------------ *)
(* the two kernels                                                       *)

Section Kernels.
  Context {N : numbers}.
  Variables (uplo it jt m n nb kl ku : Z).
  Let j0 := bj_start uplo it jt nb kl.
  Let j1 := bj_end uplo it jt m n nb kl ku.
  Let i0 := bi_start uplo it jt nb kl ku.
  Let i1 := bi_end uplo it jt m nb kl.
  (* every element of the tile is assigned once *)
  Definition tile_cut : Prop := 0 <= j0 <= j1 /\ j1 <= n /\ forall j, j0 <= j < j1 -> 0 <= i0 j <= i1 j /\ i1 j <= m.

  Definition inb (i j : Z) : bool := (j0 <=? j) && (j <? j1) && (i0 j <=? i) && (i <? i1 j).
  Lemma inb_true : forall i j, inb i j = true <-> j0 <= j < j1 /\ i0 j <= i < i1 j.
  Proof. intros i j. unfold inb. rewrite !andb_true_iff, !Z.leb_le, !Z.ltb_lt. tauto. Qed.
  Lemma inb_false : forall i j, inb i j = false <-> ~ (j0 <= j < j1 /\ i0 j <= i < i1 j).
  Proof. intros i j. rewrite <- inb_true. destruct (inb i j); split; congruence. Qed.

  Variables (A B : loc) (lda ldb : Z).

  Definition l2t_val (M : mem N) (i j : Z) : N := if inb i j then rd M A lda i j else n0.

  Lemma l2t_fold : tile_cut -> forall M,
    core_lapack2tile uplo it jt m n nb kl ku A lda B ldb M
    = fold_left (wstep (fun p => at_ B ldb (snd p) (fst p)) (fun M p => l2t_val M (snd p) (fst p)))
        (pairs (zrange 0 n) (fun _ => zrange 0 m)) M.
  Proof.
    intros (C1 & C2 & C3) M. unfold core_lapack2tile. cbv zeta. fold j0 j1 i0 i1.
    remember (fun j i (M : mem N) => upd M (at_ B ldb i j) (l2t_val M i j)) as g eqn:Eg.
    transitivity (loop 0 n (fun j => loop 0 m (g j)) M).
    - rewrite <- (loop_split _ _ 0 j1 n), <- (loop_split _ _ 0 j0 j1) by lia.
      transitivity (loop j1 n (fun j => loop 0 m (g j))
        (loop j0 j1 (fun j M0 => loop (i1 j) m (fun i M1 => upd M1 (at_ B ldb i j) n0)
           (loop (i0 j) (i1 j) (fun i M1 => upd M1 (at_ B ldb i j) (rd M1 A lda i j))
              (loop 0 (i0 j) (fun i M1 => upd M1 (at_ B ldb i j) n0) M0)))
           (loop 0 j0 (fun j => loop 0 m (g j)) M))).
      + assert (Z0 : forall a b s, (forall j, a <= j < b -> ~ (j0 <= j < j1)) ->
          loop a b (fun j => loop 0 m (fun i (M0 : mem N) => upd M0 (at_ B ldb i j) n0)) s
          = loop a b (fun j => loop 0 m (g j)) s).
        { intros a b s H. apply loop_ext. intros j t Hj. apply loop_ext. intros i u Hi. rewrite Eg. unfold l2t_val.
          replace (inb i j) with false; [reflexivity|]. symmetry. apply inb_false. specialize (H j Hj). tauto. }
        rewrite Z0 by (intros; lia). apply f_equal. apply f_equal. apply Z0. intros; lia.
      + apply f_equal. apply loop_ext. intros j s Hj. destruct (C3 j Hj) as [C4 C5].
        rewrite <- (loop_split _ _ 0 (i1 j) m), <- (loop_split _ _ 0 (i0 j) (i1 j)) by lia.
        assert (Z1 : forall a b s, (forall i, a <= i < b -> ~ (i0 j <= i < i1 j)) ->
          loop a b (fun i (M0 : mem N) => upd M0 (at_ B ldb i j) n0) s = loop a b (g j) s).
        { intros a b u H. apply loop_ext. intros i t Hi. rewrite Eg. unfold l2t_val.
          replace (inb i j) with false; [reflexivity|]. symmetry. apply inb_false. specialize (H i Hi). tauto. }
        rewrite Z1 by (intros; lia). apply f_equal. rewrite Z1 by (intros; lia).
        apply loop_ext. intros i t Hi. rewrite Eg. unfold l2t_val.
        replace (inb i j) with true; [reflexivity|]. symmetry. apply inb_true. lia.
    - rewrite (loop_pairs _ g (fun _ => 0) (fun _ => m)). rewrite Eg. reflexivity.
  Qed.

  Hypothesis HAB : fst A <> fst B.

  Lemma l2t_mset : tile_cut -> m <= ldb -> forall M l,
    core_lapack2tile uplo it jt m n nb kl ku A lda B ldb M l = mset B ldb m n everywhere (l2t_val M) M l.
  Proof.
    intros HC HL M l. rewrite l2t_fold by assumption.
    destruct (reg_dec B ldb m n everywhere l HL) as [RG|RG].
    - destruct RG as (i & j & Hi & Hj & _ & ->). rewrite mset_in by lia. cbn [everywhere].
      change (at_ B ldb i j) with ((fun p => at_ B ldb (snd p) (fst p)) (j, i)). rewrite writes_in.
      + reflexivity.
      + apply in_pairs. rewrite !in_zrange. lia.
      + intros [j' i'] Hp E. apply in_pairs in Hp. rewrite !in_zrange in Hp. cbn in E.
        apply at_inj in E; try lia. destruct E. subst. reflexivity.
      + intros M' HM. cbn. unfold l2t_val. destruct (inb i j); [|reflexivity]. unfold rd. apply HM.
        intros [j' i'] _ E. cbn in E. unfold at_ in E. injection E as E _. congruence.
    - rewrite mset_out by assumption. apply writes_out. intros [j i] Hp E. apply in_pairs in Hp.
      rewrite !in_zrange in Hp. apply RG. exists i, j. cbn in E. repeat split; try lia. congruence.
  Qed.

  Lemma finite_band_part : forall p ld, finite_set (band_part uplo it jt m n nb kl ku p ld).
  Proof.
    intros p ld. exists (map (fun q => at_ p ld (snd q) (fst q)) (pairs (zrange j0 j1) (fun j => zrange (i0 j) (i1 j)))).
    intros l. rewrite in_map_iff. unfold band_part. fold j0 j1 i0 i1. split.
    - intros ([j i] & <- & Hp). apply in_pairs in Hp. rewrite !in_zrange in Hp. exists i, j. cbn. tauto.
    - intros (i & j & Hj & Hi & ->). exists (j, i). cbn. split; [reflexivity|]. apply in_pairs. rewrite !in_zrange. tauto.
  Qed.

  Lemma l2t_kgood : tile_cut -> m <= ldb -> kgood (omp_lapack2tile (N := N) uplo it jt m n nb kl ku A lda B ldb).
  Proof.
    intros HC HL.
    apply (kgood_ext _ (mkktask [dep_in A; dep_out B] (fun M => mset B ldb m n everywhere (l2t_val M) M)
       (band_part uplo it jt m n nb kl ku A lda) (reg B ldb m n everywhere))).
    - intros M l. apply l2t_mset; assumption.
    - apply mset_kgood; [assumption|apply finite_band_part|].
      intros M M' i j Hi Hj _ HX. unfold l2t_val. destruct (inb i j) eqn:E; [|reflexivity].
      apply HX. apply inb_true in E. exists i, j. split; [apply E|]. split; [apply E|reflexivity].
  Qed.

  (* writing back: apart if all differences i - j lie in a window of the true leading dimension *)
  Definition windowed (c : Z) : Prop := forall i j, inb i j = true -> c <= i - j < c + (lda + 1).

  Lemma band_inj_win : forall c i j i' j', windowed c -> inb i j = true -> inb i' j' = true ->
    at_ A lda i j = at_ A lda i' j' -> i = i' /\ j = j'.
  Proof.
    intros c i j i' j' HW H1 H2 E. apply HW in H1, H2. unfold at_ in E. injection E as E.
    assert (j = j') by nia. subst. lia.
  Qed.

  Lemma t2l_in : forall c (M : mem N) i j, windowed c -> inb i j = true ->
    core_tile2lapack uplo it jt m n nb kl ku B ldb A lda M (at_ A lda i j) = rd M B ldb i j.
  Proof.
    intros c M i j HW HI. unfold core_tile2lapack. cbv zeta. fold j0 j1 i0 i1.
    rewrite (loop_pairs _ (fun j i (M : mem N) => upd M (at_ A lda i j) (rd M B ldb i j)) i0 i1).
    change (at_ A lda i j) with ((fun p => at_ A lda (snd p) (fst p)) (j, i)).
    apply (writes_in (fun p => at_ A lda (snd p) (fst p)) (fun M p => rd M B ldb (snd p) (fst p))
      (pairs (zrange j0 j1) (fun j => zrange (i0 j) (i1 j))) M (j, i)).
    - apply in_pairs. rewrite !in_zrange. apply inb_true in HI. tauto.
    - intros [j' i'] Hp E. apply in_pairs in Hp. rewrite !in_zrange in Hp. cbn in E.
      apply (band_inj_win c) in E; auto; [|apply inb_true; tauto]. destruct E. subst. reflexivity.
    - intros M' HM. cbn. unfold rd. apply HM. intros [j' i'] _ E. cbn in E. unfold at_ in E. injection E as E _. congruence.
  Qed.

  Lemma t2l_out : forall M l, ~ band_part uplo it jt m n nb kl ku A lda l ->
    core_tile2lapack (N := N) uplo it jt m n nb kl ku B ldb A lda M l = M l.
  Proof.
    intros M l HN. unfold core_tile2lapack. cbv zeta. fold j0 j1 i0 i1.
    rewrite (loop_pairs _ (fun j i (M : mem N) => upd M (at_ A lda i j) (rd M B ldb i j)) i0 i1).
    apply (writes_out (fun p => at_ A lda (snd p) (fst p)) (fun M p => rd M B ldb (snd p) (fst p))).
    intros [j i] Hp E. apply in_pairs in Hp. rewrite !in_zrange in Hp. apply HN. cbn in E. exists i, j.
    fold j0 j1 i0 i1. split; [tauto|]. split; [tauto|]. congruence.
  Qed.

  Lemma t2l_kgood : forall c, windowed c -> kgood (omp_tile2lapack (N := N) uplo it jt m n nb kl ku B ldb A lda).
  Proof.
    intros c HW. constructor; cbn; [|apply finite_band_part|apply finite_band_part]. split; cbn.
    - intros M l HN. apply t2l_out. assumption.
    - intros M M' l HM (i & j & Hj & Hi & ->). assert (HI : inb i j = true) by (apply inb_true; tauto).
      rewrite !(t2l_in c) by assumption. apply HM. exists i, j. auto.
  Qed.
End Kernels.
