(* One task per tile of a triangle: the first phases of plasma_pzlansy, plasma_pzlanhe and
   plasma_pzlantr. *)
From Coq Require Import ZArith List Bool Lia Ring.
From Verif Require Import Base NumModel NumProofs FieldModel TaskModel TaskSpec TaskProofs DescModel DescSpec
  DescProofs DescProofs4 DescDriverModel MatModel MatSpec MatProofs RegionProofs
  LayoutModel LayoutProofs LayoutProofs2 DriverModel DriverSpec SimProofs OpProofs OperandProofs GemmProofs
  EwProofs SwpModel NormModel NormTriModel NormSpec FillProofs NormProofs NormDriverProofs NormPhaseProofs
  NormTriProofs NormTriProofs2.
Import ListNotations.
Open Scope Z_scope.

(* the tiles of the triangle, in the order of the loops *)
Definition tri_ns (uplo : Z) (A : desc) (m : Z) : list Z :=
  (if uplo =? PlasmaLower then zrange 0 (Z.min m (d_nt A)) else zrange (m + 1) (d_nt A))
  ++ (if m <? d_nt A then [m] else []).
Definition idx_st (uplo : Z) (A : desc) : list (Z * Z) := pairs (zrange 0 (d_mt A)) (tri_ns uplo A).

Lemma flat_map_app' : forall (X Y : Type) (f : X -> list Y) l l', flat_map f (l ++ l') = flat_map f l ++ flat_map f l'.
Proof. intros X Y f l l'. apply flat_map_app. Qed.

Lemma tri_tiles_eq : forall (T : Type) uplo A (off : Z -> Z -> list T) diag,
  tri_tiles uplo A off diag
  = flat_map (fun p => if fst p =? snd p then [diag (fst p)] else off (fst p) (snd p)) (idx_st uplo A).
Proof.
  intros T uplo A off diag. unfold tri_tiles, idx_st, pairs. generalize (zrange 0 (d_mt A)). intros L.
  induction L as [|m L IH]; [reflexivity|]. cbn [flat_map]. rewrite flat_map_app, <- IH. apply f_equal2; [|reflexivity].
  unfold tri_ns. rewrite map_app, flat_map_app. apply f_equal2.
  - assert (HN : forall n, In n (if uplo =? PlasmaLower then zrange 0 (Z.min m (d_nt A)) else zrange (m + 1) (d_nt A)) -> n <> m).
    { intros n. destruct (uplo =? PlasmaLower); rewrite in_zrange; lia. }
    revert HN. generalize (if uplo =? PlasmaLower then zrange 0 (Z.min m (d_nt A)) else zrange (m + 1) (d_nt A)).
    intros K HN. induction K as [|n K IHK]; [reflexivity|]. cbn [flat_map map fst snd].
    assert (n <> m) by (apply HN; left; reflexivity). replace (m =? n) with false by lia.
    rewrite IHK; [reflexivity|]. intros x Hx. apply HN. right. assumption.
  - destruct (m <? d_nt A); cbn [map flat_map fst snd]; [rewrite Z.eqb_refl|]; reflexivity.
Qed.

Lemma tri_tiles_map : forall (T : Type) uplo A (t : Z * Z -> T),
  tri_tiles uplo A (fun m n => [t (m, n)]) (fun m => t (m, m)) = map t (idx_st uplo A).
Proof.
  intros T uplo A t. rewrite tri_tiles_eq. induction (idx_st uplo A) as [|[m n] L IH]; [reflexivity|].
  cbn [flat_map map fst snd]. rewrite IH. destruct (Z.eqb_spec m n) as [->|]; reflexivity.
Qed.

Lemma idx_st_in : forall uplo A m n, valid_uplo uplo ->
  In (m, n) (idx_st uplo A) <-> in_tiles A m n /\ stored uplo m n = true.
Proof.
  intros uplo A m n HU. unfold idx_st. rewrite in_pairs. unfold tri_ns, in_tiles, stored. rewrite in_app_iff, in_zrange.
  assert (HD : In n (if m <? d_nt A then [m] else []) <-> n = m /\ m < d_nt A).
  { destruct (Z.ltb_spec m (d_nt A)); cbn; intuition lia. }
  rewrite HD. destruct HU as [-> | ->]; cbn [Z.eqb PlasmaUpper PlasmaLower Pos.eqb]; rewrite in_zrange, Z.leb_le; lia.
Qed.

Lemma idx_st_NoDup : forall uplo A, NoDup (idx_st uplo A).
Proof.
  intros uplo A. apply NoDup_pairs; [apply NoDup_zrange|]. intros m _. unfold tri_ns. apply NoDup_app_intro.
  - destruct (uplo =? PlasmaLower); apply NoDup_zrange.
  - destruct (m <? d_nt A); repeat constructor. intros [].
  - intros n Hn Hm. destruct (m <? d_nt A); [|destruct Hm]. destruct Hm as [<-|[]].
    destruct (uplo =? PlasmaLower); apply in_zrange in Hn; lia.
Qed.

Section Gen.
  Context {N : normed}.
  Variables (nb bA : Z) (A : desc) (pA : loc) (lda bW : Z).
  Hypothesis HA : dn nb A.
  Hypothesis Hb : 0 < nb.
  Hypothesis LA : d_m A <= lda.
  Hypothesis H1 : fst pA <> bA.
  Hypothesis H2 : fst pA <> bW.
  Hypothesis H3 : bA <> bW.
  Variable M : mem N.


  Section Jobs1.
    Variables (I : Type) (L : list I) (tm tn off len : I -> Z) (t : I -> ktask N) (val : I -> (Z -> Z -> N) -> Z -> N).
    Hypothesis HN : NoDup L.
    Hypothesis HI : forall x, In x L -> in_tiles A (tm x) (tn x).
    Hypothesis HV : forall x F F' r, In x L -> agree (tile_mview A (tm x)) (tile_nview A (tn x)) F F' ->
      0 <= r < len x -> val x F r = val x F' r.

    Hypothesis HX : forall x y r r', In x L -> In y L -> 0 <= r < len x -> 0 <= r' < len y ->
       off x + r = off y + r' -> x = y.

    Lemma seg1_gen :
      (forall x, In x L -> t x = {| k_deps := [dep_in (tptr bA A (tm x) (tn x)); dep_out (bW, off x)];
         k_fun := fun M => fill (bW, off x) (len x) (val x (rd M (tptr bA A (tm x) (tn x)) (tile_mmain A (tm x)))) M;
         k_reads := reg (tptr bA A (tm x) (tn x)) (tile_mmain A (tm x)) (tile_mview A (tm x)) (tile_nview A (tn x)) everywhere;
         k_writes := seg (bW, off x) (len x) |}) ->
      region_ensures (pzge2desc pA lda bA A ++ map t L) M
      (fun M' => (forall x r, In x L -> 0 <= r < len x ->
                    M' (bW, off x + r) = val x (tile_of nb pA lda M (tm x) (tn x)) r) /\
                 (forall l, fst l <> bA -> (forall x, In x L -> ~ seg (bW, off x) (len x) l) -> M' l = M l)).
    Proof using HA Hb LA H1 H2 H3 HN HI HV HX.
      intros HT.
      eapply region_mono; [|apply (jobs_region nb bA A pA lda bW t tm tn (fun x => [(off x, len x)]) L); auto].
      - intros M' (M3 & E1 & E2 & E3 & E4). split.
        + intros x r Hx Hr. pose proof (E3 x (off x, len x) r Hx (or_introl eq_refl) Hr) as E.
          cbn [fst snd] in E. rewrite E, (HT x Hx). cbn [k_fun].
          rewrite (fill_in N (bW, off x)) by assumption. apply HV; [assumption| |assumption].
          eapply tile_agree; eauto.
        + intros l L1 L2. rewrite E4, E2; auto. intros x s Hx [<-|[]]. apply L2. assumption.
      - intros x Hx. rewrite (HT x Hx). apply (fill_kgood N); [apply finite_reg|].
        intros M1 M2 r Hr HM. apply HV; [assumption| |assumption]. apply agree_reg. assumption.
      - intros x Hx. rewrite (HT x Hx). reflexivity.
      - intros x l Hx. rewrite (HT x Hx). auto.
      - intros x l Hx. rewrite (HT x Hx). cbn [k_writes]. split.
        + intros Hl. exists (off x, len x). split; [left; reflexivity|assumption].
        + intros (s & [<-|[]] & Hl). assumption.
      - intros x y s s' r r' Hp Hq [<-|[]] [<-|[]] Hr Hr' E. cbn [fst snd] in *.
        assert (x = y) as -> by (apply (HX x y r r'); auto). auto.
    Qed.
  End Jobs1.

  Section Jobs2.
    Variables (I : Type) (L : list I) (tm tn off : I -> Z) (S : Z) (t : I -> ktask N) (val : I -> (Z -> Z -> N) -> N * N).
    Hypothesis HN : NoDup L.
    Hypothesis HI : forall x, In x L -> in_tiles A (tm x) (tn x).
    Hypothesis HV : forall x F F', In x L -> agree (tile_mview A (tm x)) (tile_nview A (tn x)) F F' -> val x F = val x F'.
    Hypothesis HB : forall x, In x L -> 0 <= off x < S.
    Hypothesis HX : forall x y, In x L -> In y L -> off x = off y -> x = y.

    Lemma seg2_gen :
      (forall x, In x L -> t x = {| k_deps := [dep_in (tptr bA A (tm x) (tn x)); dep_out (bW, off x); dep_out (bW, S + off x)];
         k_fun := fun M => fill (bW, S + off x) 1 (fun _ => snd (val x (rd M (tptr bA A (tm x) (tn x)) (tile_mmain A (tm x)))))
                      (fill (bW, off x) 1 (fun _ => fst (val x (rd M (tptr bA A (tm x) (tn x)) (tile_mmain A (tm x))))) M);
         k_reads := reg (tptr bA A (tm x) (tn x)) (tile_mmain A (tm x)) (tile_mview A (tm x)) (tile_nview A (tn x)) everywhere;
         k_writes := fun l => seg (bW, off x) 1 l \/ seg (bW, S + off x) 1 l |}) ->
      region_ensures (pzge2desc pA lda bA A ++ map t L) M
      (fun M' => (forall x, In x L -> (M' (bW, off x), M' (bW, S + off x)) = val x (tile_of nb pA lda M (tm x) (tn x))) /\
                 (forall l, fst l <> bA -> (forall x, In x L -> l <> (bW, off x) /\ l <> (bW, S + off x)) -> M' l = M l)).
    Proof using HA Hb LA H1 H2 H3 HN HI HV HX HB.
      intros HT.
      eapply region_mono; [|apply (jobs_region nb bA A pA lda bW t tm tn (fun x => [(off x, 1); (S + off x, 1)]) L); auto].
      - intros M' (M3 & E1 & E2 & E3 & E4). split.
        + intros x Hx.
          pose proof (E3 x _ 0 Hx (or_introl eq_refl) ltac:(cbn; lia)) as F1.
          pose proof (E3 x _ 0 Hx (or_intror (or_introl eq_refl)) ltac:(cbn; lia)) as F2.
          cbn [fst snd] in F1, F2. rewrite Z.add_0_r in F1, F2. rewrite F1, F2. clear F1 F2.
          rewrite (HT x Hx). cbn [k_fun]. rewrite fill_out.
          2: { intros (r & Hr & E). cbn [fst snd] in E. injection E as E. specialize (HB x Hx). lia. }
          replace (bW, off x) with (bW, off x + 0) at 2 by (f_equal; lia). rewrite (fill_in N (bW, off x) 1) by lia.
          replace (bW, S + off x) with (bW, S + off x + 0) at 2 by (f_equal; lia). rewrite (fill_in N (bW, S + off x) 1) by lia.
          rewrite (HV x _ (tile_of nb pA lda M (tm x) (tn x)) Hx).
          2: { eapply tile_agree; eauto. }
          symmetry. apply surjective_pairing.
        + intros l L1 L2. rewrite E4, E2; auto. intros x s Hx Hs (r & Hr & El). destruct (L2 x Hx) as [N1 N2].
          destruct Hs as [<-|[<-|[]]]; cbn [fst snd] in *; [apply N1|apply N2]; rewrite El; f_equal; lia.
      - intros x Hx. rewrite (HT x Hx).
        apply (fill2_kgood N _ (bW, off x) 1 (fun M _ => fst (val x (rd M (tptr bA A (tm x) (tn x)) (tile_mmain A (tm x)))))
          (bW, S + off x) 1 (fun M _ => snd (val x (rd M (tptr bA A (tm x) (tn x)) (tile_mmain A (tm x)))))); [apply finite_reg| |];
        intros M1 M2 r Hr HM; apply f_equal; apply HV; auto; apply agree_reg; assumption.
      - intros x Hx. rewrite (HT x Hx). reflexivity.
      - intros x l Hx. rewrite (HT x Hx). auto.
      - intros x l Hx. rewrite (HT x Hx). cbn [k_writes]. split.
        + intros [Hl|Hl]; eexists; split; [left; reflexivity|exact Hl|right; left; reflexivity|exact Hl].
        + intros (s & [<-|[<-|[]]] & Hl); auto.
      - intros x y s s' r r' Hp Hq Hs Hs' Hr Hr' E. pose proof (HB x Hp) as B1. pose proof (HB y Hq) as B2.
        assert (EE : off x = off y /\ (fst s <? S) = (fst s' <? S)).
        { destruct Hs as [<-|[<-|[]]], Hs' as [<-|[<-|[]]]; cbn [fst snd] in *; split; lia. }
        destruct EE as [E1 E2]. assert (x = y) as -> by auto. split; [reflexivity|].
        destruct Hs as [<-|[<-|[]]], Hs' as [<-|[<-|[]]]; cbn [fst snd] in *; try reflexivity; lia.
    Qed.
  End Jobs2.
End Gen.
