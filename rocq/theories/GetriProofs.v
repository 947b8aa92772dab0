(* The inverse from the LU factors: the three phases together. *)
From Coq Require Import ZArith List Bool Lia Ring.
From Verif Require Import Base NumModel NumProofs FieldModel TaskModel TaskSpec TaskProofs DescModel DescSpec
  DescDriverModel DescProofs MatModel MatSpec MatProofs RegionProofs LayoutModel LayoutProofs OpProofs SimProofs OperandProofs
  GemmModel GemmProofs TriModel TriSpec DriverSpec PotrfModel PotrfSpec TriVecProofs TriProofs InvSpec InvProofs ViewProofs TrtriModel TrtriStepProofs
  TrtriTaskProofs TrtriCodeProofs TrtriProofs TrtriDriverProofs GetrfSpec SwpModel SwpSpec SwpProofs GuardModel GuardSpec
  GuardProofs GuardProofs2 SwpDriverProofs GetrsProofs GetriModel GetriAuxProofs GetriLinkProofs InvDriverProofs.
Import ListNotations.
Open Scope Z_scope.

(* products of square matrices *)
Section Math.
  Context {F : fields}.
  Add Ring num_ring_getrim : (nring F).
  Variable n : Z.
  Definition mm (f g : Z -> Z -> F) (i j : Z) : F := nsum (fun l => nmul (f i l) (g l j)) 0 n.

  Lemma mm_ext : forall f f' g g' i j, (forall l, 0 <= l < n -> f i l = f' i l) -> (forall l, 0 <= l < n -> g l j = g' l j) ->
    mm f g i j = mm f' g' i j.
  Proof. intros f f' g g' i j H1 H2. apply nsum_ext. intros l Hl. rewrite H1, H2 by assumption. reflexivity. Qed.
  Lemma mm_assoc : forall f g h i j, mm (mm f g) h i j = mm f (mm g h) i j.
  Proof.
    intros f g h i j. unfold mm.
    rewrite (nsum_ext F _ (fun l => nsum (fun m => nmul (nmul (f i m) (g m l)) (h l j)) 0 n)).
    2:{ intros l Hl. rewrite nsum_mul_r. reflexivity. }
    rewrite nsum_swap. apply nsum_ext. intros m Hm. rewrite <- nsum_mul_l. apply nsum_ext. intros l Hl. ring.
  Qed.
  Lemma mm_id_l : forall f i j, 0 <= i < n -> mm delta f i j = f i j.
  Proof. intros f i j Hi. unfold mm. apply (nsum_delta_l (fun l => f l j)). assumption. Qed.
  Lemma mm_id_r : forall f i j, 0 <= j < n -> mm f delta i j = f i j.
  Proof. intros f i j Hj. unfold mm. apply (nsum_delta_r (fun l => f i l)). assumption. Qed.

  Definition isid (f : Z -> Z -> F) : Prop := forall i j, 0 <= i < n -> 0 <= j < n -> f i j = delta i j.

  (* P*A0 = L*U, U^(-1) = V, X*L = V: the columns of X put back are the inverse of A0 *)
  Lemma getri_math : forall (s s' : Z -> Z) (A0 L U V K X : Z -> Z -> F),
    (forall i, 0 <= i < n -> 0 <= s i < n) -> (forall i, 0 <= i < n -> 0 <= s' i < n) ->
    (forall i, s' (s i) = i) -> (forall i, s (s' i) = i) ->
    (forall i j, 0 <= i < n -> 0 <= j < n -> A0 (s i) j = mm L U i j) ->
    isid (mm U V) -> isid (mm V U) -> isid (mm L K) ->
    (forall i j, 0 <= i < n -> 0 <= j < n -> mm X L i j = V i j) ->
    is_inverse n A0 (fun i j => X i (s' j)).
  Proof.
    intros s s' A0 L U V K X Hs Hs' SS SS' HA UV VU LK XL.
    assert (XK : forall i j, 0 <= i < n -> 0 <= j < n -> X i j = mm V K i j).
    { intros i j Hi Hj. rewrite <- (mm_id_r X) by assumption.
      rewrite (mm_ext X X delta (mm L K)); [|reflexivity|intros; symmetry; apply LK; assumption].
      rewrite <- mm_assoc. apply mm_ext; [|reflexivity]. intros l Hl. apply XL; assumption. }
    intros i j [Hi Hj]. split.
    - transitivity (mm (mm L U) X (s' i) (s' j)).
      + unfold mm at 1. apply nsum_ext. intros l Hl. rewrite <- HA by auto. rewrite SS'. reflexivity.
      + pose proof (Hs' i Hi) as Hi'. pose proof (Hs' j Hj) as Hj'.
        rewrite mm_assoc. transitivity (mm L K (s' i) (s' j)).
        * apply mm_ext; [reflexivity|]. intros l Hl. rewrite (mm_ext U U X (mm V K)); [|reflexivity|intros; apply XK; assumption].
          rewrite <- mm_assoc. rewrite (mm_ext (mm U V) delta K K); [|intros; apply UV; assumption|reflexivity].
          apply mm_id_l. assumption.
        * rewrite LK by assumption. unfold delta.
          destruct (Z.eqb_spec (s' i) (s' j)) as [E|E]; destruct (Z.eqb_spec i j) as [E'|E']; try reflexivity.
          -- exfalso. apply E'. rewrite <- (SS' i), <- (SS' j), E. reflexivity.
          -- exfalso. apply E. rewrite E'. reflexivity.
    - transitivity (mm X (mm L U) i j).
      + rewrite <- (nsum_perm (fun l => nmul (X i (s' l)) (A0 l j)) n s s') by auto.
        apply nsum_ext. intros l Hl. rewrite SS, HA by assumption. reflexivity.
      + rewrite <- mm_assoc. rewrite (mm_ext _ V U U); [|intros; apply XL; assumption|reflexivity].
        apply VU; assumption.
  Qed.

  (* the inverse of the upper factor *)
  Definition Vof (S : Z -> Z -> F) (i j : Z) : F :=
    nconj (inverse n (TS PlasmaNonUnit (fun a b => nconj (S b a))) j i).
  Lemma TS_U : forall (S : Z -> Z -> F) i j, nconj (TS PlasmaNonUnit (fun a b => nconj (S b a)) j i) = factor_U S i j.
  Proof.
    intros S i j. unfold TS, factor_U. change (PlasmaNonUnit =? PlasmaUnit) with false. cbn [andb].
    destruct (i <=? j); [apply nconj_conj|apply nconj_0].
  Qed.
  Lemma delta_sym : forall i j, nconj (delta (N := F) j i) = delta i j.
  Proof. intros. rewrite delta_conj. unfold delta. rewrite Z.eqb_sym. reflexivity. Qed.

  Section Upper.
    Variable S : Z -> Z -> F.
    Let T := TS PlasmaNonUnit (fun a b => nconj (S b a)).
    Hypothesis HD : forall i, 0 <= i < n -> factor_U S i i <> n0.
    Lemma T_diag : forall i, 0 <= i < n -> T i i <> n0.
    Proof.
      intros i Hi E. apply (HD i Hi). rewrite <- TS_U. fold T. rewrite E. apply nconj_0.
    Qed.
    Lemma T_low : forall i l, 0 <= i < n -> i < l < n -> T i l = n0.
    Proof.
      intros i l Hi Hl. unfold T, TS. change (PlasmaNonUnit =? PlasmaUnit) with false. cbn [andb].
      replace (l <=? i) with false by (symmetry; apply Z.leb_gt; lia). reflexivity.
    Qed.

    Lemma V_left : isid (mm (Vof S) (factor_U S)).
    Proof.
      intros i j Hi Hj. rewrite <- delta_sym. rewrite <- (inverse_r n T T_diag T_low j i Hj).
      unfold mm. rewrite nconj_sum. apply nsum_ext. intros l Hl. rewrite nconj_mul. rewrite <- TS_U. unfold Vof. fold T. ring.
    Qed.
    Lemma V_right : isid (mm (factor_U S) (Vof S)).
    Proof.
      intros i j Hi Hj. rewrite <- delta_sym. rewrite <- (inverse_l n T T_diag T_low j i Hj Hi).
      unfold mm. rewrite nconj_sum. apply nsum_ext. intros l Hl. rewrite nconj_mul. rewrite <- TS_U. unfold Vof. fold T. ring.
    Qed.
    Lemma V_low : forall i j, 0 <= j < i -> i < n -> Vof S i j = n0.
    Proof.
      intros i j Hj Hi. unfold Vof. fold T. rewrite (inverse_low n T T_diag T_low) by lia. apply nconj_0.
    Qed.
  End Upper.

  Lemma L_inv : forall S : Z -> Z -> F, @n1 F <> n0 -> exists K, isid (mm (factor_L S) K).
  Proof.
    intros S N10. exists (inverse n (factor_L S)). intros i j Hi Hj. apply inverse_r; try assumption.
    - intros r Hr. unfold factor_L. rewrite Z.eqb_refl. assumption.
    - intros r l Hr Hl. unfold factor_L. replace (r =? l) with false by (symmetry; apply Z.eqb_neq; lia).
      replace (l <? r) with false by (symmetry; apply Z.ltb_ge; lia). reflexivity.
  Qed.
End Math.

Section Phases.
  Context {F : fields}.
  Add Ring num_ring_getrip : (nring F).
  Variables (nb n : Z) (A W : desc) (bA bW : Z).
  Hypotheses (HA : dn nb A) (HW : dn nb W).
  Hypotheses (Am : d_m A = n) (An : d_n A = n) (Wm : d_m W = n) (Wn : d_n W = nb).
  Hypothesis NW : bA <> bW.
  Hypothesis N10 : @n1 F <> n0.

  Let UP : valid_uplo PlasmaUpper := or_introl eq_refl.

  (* the inverse of U, in place; L is kept *)
  Lemma trtri_at : forall (S : Z -> Z -> F) M, (forall i j, 0 <= i < n -> 0 <= j < n -> el M bA A i j = S i j) ->
    (forall i, 0 <= i < n -> factor_U S i i <> n0) ->
    let M' := krun (map ck_task (pztrtri PlasmaUpper PlasmaNonUnit bA A)) M in
    (forall i j, 0 <= i < n -> 0 <= j < n -> el M' bA A i j = if i <=? j then Vof n S i j else S i j) /\
    (forall l, fst l <> bA -> M' l = M l).
  Proof.
    intros S M HS HD. cbv zeta.
    destruct (dense_tiles nb n A PlasmaUpper HA Am An) as [HSA HIN].
    rewrite (pztrtri_eq nb n A (in_tiles A) bA PlasmaUpper PlasmaNonUnit UP HA Am An HSA).
    destruct (tlist_step nb n A (in_tiles A) bA PlasmaUpper PlasmaNonUnit UP HA Am An HSA M
      (fun a b => nconj (S b a)) (T_diag n S HD) M) as [[R1 R2] _].
    { split; [reflexivity|]. intros i j (Hi & Hj & _). unfold vview. change (vlow PlasmaUpper) with false. cbv iota.
      apply f_equal. apply HS; assumption. }
    split; [|exact R1]. intros i j Hi Hj.
    destruct (Z_le_gt_dec (i / nb) (j / nb)) as [LE|GT].
    - specialize (R2 j i ltac:(repeat split; lia)). unfold vview in R2. change (vlow PlasmaUpper) with false in R2. cbv iota in R2.
      rewrite <- (nconj_conj F (el _ bA A i j)), R2. unfold tsel. change (PlasmaNonUnit =? PlasmaUnit) with false.
      cbn [andb negb]. rewrite andb_true_r. destruct (i <=? j); [reflexivity|apply nconj_conj].
    - rewrite (tlist_opp nb n A (in_tiles A) bA PlasmaUpper PlasmaNonUnit UP HA Am An HSA) by (auto; apply Z.gt_lt; exact GT).
      replace (i <=? j) with false; [apply HS; assumption|]. symmetry. apply Z.leb_gt.
      pose proof (x_pos nb A HA). destruct (Z.lt_ge_cases j i) as [|GE]; [assumption|]. exfalso.
      assert (i / nb <= j / nb) by (apply Z.div_le_mono; lia). lia.
  Qed.
End Phases.
