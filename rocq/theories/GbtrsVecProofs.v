(* The factors of a general band matrix on one column. *)
From Coq Require Import ZArith List Bool Lia Ring.
From Verif Require Import Base NumModel NumProofs FieldModel TaskModel DescModel DescProofs OpProofs
  GemmModel GemmProofs MatModel MatSpec MatProofs TriModel TriVecProofs SwpModel SwpSpec SwpProofs GetrsProofs PbtrsVecProofs
  GbtrsModel GbtrsSpec.
Import ListNotations.
Open Scope Z_scope.

Section Alg.
  Context {N : numbers}.
  Add Ring num_ring_gbv : (nring N).
  Variables (nb n : Z) (a : Z -> Z -> N) (ipiv : Z -> Z).
  Hypotheses (Hb : 0 < nb) (Hn : 0 <= n).
  Hypothesis HP : legal_pivots ipiv n.

  Definition sw (k : Z) : list (Z * Z) := block_swaps nb n ipiv k.

  Lemma sw_in : forall k, 0 <= k -> swaps_in n (sw k).
  Proof.
    intros k Hk. unfold swaps_in, sw, block_swaps. apply Forall_forall. intros p Hp. apply in_map_iff in Hp.
    destruct Hp as (i & <- & Hi). apply in_zrange in Hi. cbn [fst snd].
    assert (0 <= i < n) by nia. specialize (HP i H). lia.
  Qed.
  Lemma sw_rev_in : forall k, 0 <= k -> swaps_in n (rev (sw k)).
  Proof.
    intros k Hk. pose proof (sw_in k Hk) as H. unfold swaps_in in *. rewrite Forall_forall in *.
    intros p Hp. apply H. apply in_rev. assumption.
  Qed.

  Lemma lower_times_ext : forall k y y' i, 0 <= k -> 0 <= i < n -> (forall r, 0 <= r < n -> y r = y' r) ->
    lower_times nb n a k y i = lower_times nb n a k y' i.
  Proof.
    intros k y y' i Hk Hi E. unfold lower_times. rewrite E by assumption. apply f_equal. apply nsum_ext. intros j Hj.
    rewrite E by nia. reflexivity.
  Qed.

  Lemma lower_times_sum : forall k (C : Z -> Z -> N) x i,
    nsum (fun j => nmul (lower_times nb n a k (fun r => C r j) i) (x j)) 0 n
    = lower_times nb n a k (fun r => nsum (fun j => nmul (C r j) (x j)) 0 n) i.
  Proof.
    intros k C x i. unfold lower_times.
    rewrite (nsum_ext _ _ (fun j => nadd (nmul (C i j) (x j))
      (nmul (nsum (fun l => if l <? i then nmul (a i l) (C l j) else n0) (k * nb) (Z.min ((k + 1) * nb) n)) (x j)))) by (intros; ring).
    rewrite nsum_add. apply f_equal.
    rewrite (nsum_ext _ _ (fun j => nsum (fun l => nmul (if l <? i then nmul (a i l) (C l j) else n0) (x j)) (k * nb) (Z.min ((k + 1) * nb) n)))
      by (intros j _; rewrite nsum_mul_r; reflexivity).
    rewrite nsum_swap. apply nsum_ext. intros l Hl. destruct (l <? i).
    - rewrite <- nsum_mul_l. apply nsum_ext. intros; ring.
    - apply nsum_0. intros; ring.
  Qed.

  Definition um (i j : Z) : N := if i <=? j then a i j else n0.

  (* y, y', ...: the right hand side after each block *)
  Fixpoint chain (l : list Z) (y x : Z -> N) : Prop :=
    match l with
    | [] => forall i, 0 <= i < n -> nsum (fun j => nmul (um i j) (x j)) 0 n = y i
    | k :: r => exists y', (forall i, 0 <= i < n -> lower_times nb n a k y' i = y (source (sw k) i)) /\ chain r y' x
    end.

  Lemma chain_ok : forall l y x, (forall k, In k l -> 0 <= k) -> chain l y x ->
    forall i, 0 <= i < n -> nsum (fun j => nmul (factored nb n a ipiv l i j) (x j)) 0 n = y i.
  Proof.
    induction l as [|k l IH]; intros y x HK HC i Hi; cbn [chain] in HC.
    - cbn [factored fold_right]. apply HC. assumption.
    - destruct HC as (y' & HL & HC). cbn [factored fold_right]. fold (factored nb n a ipiv l). fold (sw k).
      assert (K0 : 0 <= k) by (apply HK; left; reflexivity).
      pose proof (source_range n (rev (sw k)) i (sw_rev_in k K0) Hi) as RI.
      rewrite lower_times_sum. rewrite (lower_times_ext k _ y') ; [|assumption|assumption|].
      + rewrite HL by assumption. rewrite source_rev. reflexivity.
      + intros r Hr. apply IH; auto. intros k' Hk'. apply HK. right. assumption.
  Qed.

  (* transposed *)
  Variable oc : N -> N.
  Hypothesis oc_0 : oc n0 = n0.
  Hypothesis oc_add : forall x y, oc (nadd x y) = nadd (oc x) (oc y).
  Hypothesis oc_mul : forall x y, oc (nmul x y) = nmul (oc x) (oc y).

  Lemma oc_sum : forall (f : Z -> N) lo hi, oc (nsum f lo hi) = nsum (fun i => oc (f i)) lo hi.
  Proof.
    intros. unfold nsum. generalize (zrange lo hi). induction l as [|x l IH]; cbn; [assumption|].
    rewrite oc_add, IH. reflexivity.
  Qed.

  Definition lower_trans (k : Z) (y : Z -> N) (j : Z) : N :=
    if j / nb =? k then nadd (y j) (nsum (fun i => if j <? i then nmul (oc (a i j)) (y i) else n0) 0 n) else y j.

  Lemma lower_adj : forall k (u z : Z -> N), 0 <= k ->
    nsum (fun i => nmul (oc (lower_times nb n a k u i)) (z i)) 0 n
    = nsum (fun j => nmul (oc (u j)) (lower_trans k z j)) 0 n.
  Proof.
    intros k u z Hk. unfold lower_times.
    rewrite (nsum_ext _ _ (fun i => nadd (nmul (oc (u i)) (z i))
      (nsum (fun j => if j / nb =? k then (if j <? i then nmul (nmul (oc (a i j)) (oc (u j))) (z i) else n0) else n0) 0 n))).
    2:{ intros i Hi. rewrite oc_add, oc_sum.
        assert (E : nsum (fun j => if j / nb =? k then (if j <? i then nmul (nmul (oc (a i j)) (oc (u j))) (z i) else n0) else n0) 0 n
          = nsum (fun j => if j <? i then nmul (nmul (oc (a i j)) (oc (u j))) (z i) else n0) (k * nb) (Z.min ((k + 1) * nb) n)).
        { destruct (Z_lt_le_dec (k * nb) n) as [L|L].
          - rewrite (nsum_app _ _ 0 (k * nb) n) by nia. rewrite (nsum_app _ _ (k * nb) (Z.min ((k + 1) * nb) n) n) by nia.
            rewrite (nsum_0 _ _ 0 (k * nb)). 2:{ intros j Hj. replace (j / nb =? k) with false; [reflexivity|]. symmetry. apply Z.eqb_neq.
              intros E. pose proof (Z.div_mod j nb ltac:(lia)). pose proof (Z.mod_pos_bound j nb Hb). nia. }
            rewrite (nsum_0 _ _ (Z.min ((k + 1) * nb) n) n). 2:{ intros j Hj. replace (j / nb =? k) with false; [reflexivity|]. symmetry. apply Z.eqb_neq.
              intros E. pose proof (Z.div_mod j nb ltac:(lia)). pose proof (Z.mod_pos_bound j nb Hb). nia. }
            rewrite (nsum_ext _ _ (fun j => if j <? i then nmul (nmul (oc (a i j)) (oc (u j))) (z i) else n0) (k * nb)).
            2:{ intros j Hj. rewrite (blk_div nb n k j) by assumption. rewrite Z.eqb_refl. reflexivity. }
            ring.
          - rewrite (nsum_nil _ _ (k * nb)) by lia. apply nsum_0. intros j Hj. replace (j / nb =? k) with false; [reflexivity|]. symmetry. apply Z.eqb_neq.
            intros E. pose proof (Z.div_mod j nb ltac:(lia)). pose proof (Z.mod_pos_bound j nb Hb). nia. }
        rewrite E. clear E.
        transitivity (nadd (nmul (oc (u i)) (z i)) (nmul (nsum (fun j => oc (if j <? i then nmul (a i j) (u j) else n0)) (k * nb) (Z.min ((k + 1) * nb) n)) (z i))); [ring|].
        apply f_equal. rewrite <- nsum_mul_r. apply nsum_ext. intros j Hj. destruct (j <? i); [rewrite oc_mul; ring|rewrite oc_0; ring]. }
    rewrite nsum_add, nsum_swap, <- nsum_add. apply nsum_ext. intros j Hj. unfold lower_trans.
    destruct (j / nb =? k).
    - rewrite (nsum_ext _ _ (fun i => nmul (oc (u j)) (if j <? i then nmul (oc (a i j)) (z i) else n0))).
      2:{ intros i Hi. destruct (j <? i); ring. }
      rewrite nsum_mul_l. ring.
    - rewrite nsum_0 by reflexivity. ring.
  Qed.

  (* the solution before each block, the last one first *)
  Fixpoint tchain (l : list Z) (b x : Z -> N) : Prop :=
    match l with
    | [] => forall j, 0 <= j < n -> nsum (fun i => nmul (oc (um i j)) (x i)) 0 n = b j
    | k :: r => exists x', (forall i, 0 <= i < n -> lower_trans k (fun r => x (source (sw k) r)) i = x' i) /\ tchain r b x'
    end.

  Lemma tchain_ok : forall l b x, (forall k, In k l -> 0 <= k) -> tchain l b x ->
    forall j, 0 <= j < n -> nsum (fun i => nmul (oc (factored nb n a ipiv l i j)) (x i)) 0 n = b j.
  Proof.
    induction l as [|k l IH]; intros b x HK HC j Hj; cbn [tchain] in HC.
    - cbn [factored fold_right]. apply HC. assumption.
    - destruct HC as (x' & HL & HC). cbn [factored fold_right]. fold (factored nb n a ipiv l). fold (sw k).
      assert (K0 : 0 <= k) by (apply HK; left; reflexivity).
      rewrite <- (IH b x'); [|intros k' Hk'; apply HK; right; assumption|assumption|assumption].
      rewrite <- (nsum_perm _ n (source (sw k)) (source (rev (sw k)))).
      2:{ intros i Hi. apply source_range; [apply sw_in; assumption|assumption]. }
      2:{ intros i Hi. apply source_rev2. }
      rewrite (nsum_ext _ _ (fun i => nmul (oc (lower_times nb n a k (fun r => factored nb n a ipiv l r j) i)) (x (source (sw k) i)))).
      2:{ intros i Hi. rewrite source_rev2. reflexivity. }
      rewrite (lower_adj k (fun r => factored nb n a ipiv l r j) (fun i => x (source (sw k) i))) by assumption.
      apply nsum_ext. intros i Hi. rewrite HL by assumption. reflexivity.
  Qed.
End Alg.
