(* The Cholesky equations and positive definiteness. *)
From Coq Require Import ZArith List Bool Lia Ring.
From Verif Require Import Base NumModel NumProofs FieldModel TaskModel TriModel TriVecProofs PotrfModel PotrfSpec CholProofs.
Import ListNotations.
Open Scope Z_scope.

Section Hpd.
  Context {F : fields}.
  Add Ring num_ring_hpd : (nring F).
  Variable R : roots F.
  Variable rp : F -> F.
  Variable P : positivity F.
  Hypothesis Hrp : forall x, nconj x = x -> rp x = x.
  Hypothesis HR : has_roots P R.

  Lemma nz_mul : forall x y : F, x <> n0 -> y <> n0 -> nmul x y <> n0.
  Proof.
    intros x y Hx Hy E. apply Hy. transitivity (nmul (nmul (finv x) x) y); [rewrite finv_l by assumption; ring|].
    transitivity (nmul (finv x) (nmul x y)); [ring|]. rewrite E. ring.
  Qed.
  Lemma nz_conj : forall x : F, x <> n0 -> nconj x <> n0.
  Proof. intros x Hx E. apply Hx. rewrite <- (nconj_conj F x), E. apply nconj_0. Qed.

  Lemma fpos_step : forall a x : F, a = n0 \/ fpos P a -> x <> n0 -> fpos P (nadd a (nmul (nconj x) x)).
  Proof.
    intros a x [->|H] Hx; [|apply fpos_add; [assumption|apply fpos_sq; assumption]].
    replace (nadd n0 (nmul (nconj x) x)) with (nmul (nconj x) x) by ring. apply fpos_sq. assumption.
  Qed.
  Lemma add_sq_0 : forall a x : F, x = n0 -> nadd a (nmul (nconj x) x) = a.
  Proof. intros a x ->. ring. Qed.

  Lemma fpos_sum0 : forall (y : Z -> F) b,
    nsum (fun l => nmul (nconj (y l)) (y l)) 0 b = n0 \/ fpos P (nsum (fun l => nmul (nconj (y l)) (y l)) 0 b).
  Proof.
    intros y b. pattern b. apply (zrange_ind_hi _ 0); clear b.
    - intros b Hb. left. apply nsum_nil. assumption.
    - intros b Hb IH. rewrite nsum_snoc by assumption. destruct (neqb_spec F (y b) n0) as [Z|Z].
      + rewrite add_sq_0 by assumption. assumption.
      + right. apply fpos_step; assumption.
  Qed.

  Lemma fpos_sum : forall (y : Z -> F) b, (exists l, 0 <= l < b /\ y l <> n0) ->
    fpos P (nsum (fun l => nmul (nconj (y l)) (y l)) 0 b).
  Proof.
    intros y b. pattern b. apply (zrange_ind_hi _ 0); clear b.
    - intros b Hb (l & Hl & _). lia.
    - intros b Hb IH (l & Hl & Hy). rewrite nsum_snoc by assumption.
      destruct (neqb_spec F (y b) n0) as [Z|Z].
      + rewrite add_sq_0 by assumption. apply IH. exists l. split; [|assumption].
        destruct (Z.eq_dec l b) as [->|]; [contradiction|lia].
      + apply fpos_step; [apply fpos_sum0|assumption].
  Qed.

  (* a sum of squares *)
  Lemma quad_form : forall (G : Z -> Z -> F) (x : Z -> F) k m,
    nsum (fun i => nsum (fun j => nmul (nconj (x i)) (nmul (nsum (fun l => nmul (G i l) (nconj (G j l))) 0 m) (x j))) 0 k) 0 k
    = nsum (fun l => nmul (nconj (nsum (fun j => nmul (nconj (G j l)) (x j)) 0 k)) (nsum (fun j => nmul (nconj (G j l)) (x j)) 0 k)) 0 m.
  Proof.
    intros G x k m.
    transitivity (nsum (fun i => nsum (fun l => nmul (nmul (nconj (x i)) (G i l)) (nsum (fun j => nmul (nconj (G j l)) (x j)) 0 k)) 0 m) 0 k).
    - apply nsum_ext. intros i _.
      transitivity (nsum (fun j => nsum (fun l => nmul (nmul (nconj (x i)) (G i l)) (nmul (nconj (G j l)) (x j))) 0 m) 0 k).
      + apply nsum_ext. intros j _. rewrite <- nsum_mul_r, <- nsum_mul_l. apply nsum_ext. intros l _. ring.
      + rewrite nsum_swap. apply nsum_ext. intros l _. rewrite nsum_mul_l. reflexivity.
    - rewrite nsum_swap. apply nsum_ext. intros l _. rewrite nsum_mul_r. apply f_equal2; [|reflexivity].
      rewrite nconj_sum. apply nsum_ext. intros i _. rewrite nconj_mul, nconj_conj. ring.
  Qed.

  (* the last nonzero element *)
  Lemma last_nz : forall (x : Z -> F) k, (exists i, 0 <= i < k /\ x i <> n0) ->
    exists p, 0 <= p < k /\ x p <> n0 /\ forall j, p < j < k -> x j = n0.
  Proof.
    intros x k. pattern k. apply (zrange_ind_hi _ 0); clear k.
    - intros k Hk (i & Hi & _). lia.
    - intros k Hk IH (i & Hi & Hx). destruct (neqb_spec F (x k) n0) as [E|E].
      + destruct IH as (p & Hp & Hx' & HL).
        { exists i. split; [|assumption]. destruct (Z.eq_dec i k) as [->|]; [contradiction|lia]. }
        exists p. split; [lia|]. split; [assumption|]. intros j Hj.
        destruct (Z.eq_dec j k) as [->|]; [assumption|apply HL; lia].
      + exists k. split; [lia|]. split; [assumption|]. intros; lia.
  Qed.

  Variables (n : Z) (SS L : Z -> Z -> F).
  Hypothesis E : chol_eqs R rp n SS L.
  Hypothesis HS : forall i j, 0 <= i < n -> 0 <= j < n -> SS j i = nconj (SS i j).

  Let L0 (i l : Z) : F := if l <=? i then L i l else n0.

  Lemma L0_sum : forall i j s, 0 <= j <= i -> j < s -> 
    nsum (fun l => nmul (L0 i l) (nconj (L0 j l))) 0 s = nsum (fun l => nmul (L i l) (nconj (L j l))) 0 (j + 1).
  Proof.
    intros i j s Hj Hs. rewrite (nsum_app _ _ 0 (j + 1) s) by lia. rewrite (nsum_0 _ _ (j + 1) s).
    - rewrite (nsum_ext F _ (fun l => nmul (L i l) (nconj (L j l)))); [ring|]. intros l Hl. unfold L0.
      replace (l <=? i) with true by (symmetry; apply Z.leb_le; lia).
      replace (l <=? j) with true by (symmetry; apply Z.leb_le; lia). reflexivity.
    - intros l Hl. unfold L0. replace (l <=? j) with false by (symmetry; apply Z.leb_gt; lia). rewrite nconj_0. ring.
  Qed.

  Lemma L0_herm : forall i j s, nsum (fun l => nmul (L0 j l) (nconj (L0 i l))) 0 s
    = nconj (nsum (fun l => nmul (L0 i l) (nconj (L0 j l))) 0 s).
  Proof. intros. rewrite nconj_sum. apply nsum_ext. intros l _. rewrite nconj_mul, nconj_conj. ring. Qed.

  Definition good (s : Z) : Prop := forall j, 0 <= j < s -> badp R (rp (piv L SS j)) = false.

  Lemma piv_rp : forall j, 0 <= j < n -> rp (piv L SS j) = piv L SS j.
  Proof. intros j Hj. apply Hrp. apply piv_real. symmetry. apply HS; assumption. Qed.

  (* off the last diagonal element *)
  Lemma gram_off : forall s i j, 0 <= s <= n -> good s -> 0 <= i < n -> 0 <= j < n -> i < s \/ j < s ->
    nsum (fun l => nmul (L0 i l) (nconj (L0 j l))) 0 s = SS i j.
  Proof.
    intros s i j Hs HG.
    assert (G : forall i j, 0 <= j <= i -> i < n -> j < s -> nsum (fun l => nmul (L0 i l) (nconj (L0 j l))) 0 s = SS i j).
    { clear i j. intros i j Hj Hi Hjs. rewrite L0_sum by assumption. destruct (Z.eq_dec i j) as [->|N].
      - apply (chol_diag R rp n SS L E Hrp); [lia|symmetry; apply HS; lia|]. rewrite <- piv_rp by lia. apply HG. lia.
      - apply (chol_row R rp n SS L E); lia. }
    intros Hi Hj HO. destruct (Z_le_gt_dec j i) as [LE|GT].
    - apply G; lia.
    - rewrite L0_herm, (G j i) by lia. symmetry. apply HS; lia.
  Qed.

  Lemma good_pd : forall s, 0 <= s <= n -> good s -> pos_def P s SS.
  Proof.
    intros s Hs HG x Hx.
    rewrite (nsum_ext F _ (fun i => nsum (fun j => nmul (nconj (x i)) (nmul (nsum (fun l => nmul (L0 i l) (nconj (L0 j l))) 0 s) (x j))) 0 s)).
    2:{ intros i Hi. apply nsum_ext. intros j Hj. rewrite gram_off by (auto; lia). reflexivity. }
    rewrite quad_form. apply fpos_sum with (y := fun l => nsum (fun j => nmul (nconj (L0 j l)) (x j)) 0 s).
    destruct (last_nz x s Hx) as (p & Hp & Hxp & HL). exists p. split; [assumption|].
    rewrite (nsum_app _ _ 0 p s) by lia. rewrite (nsum_cons _ _ p s) by lia.
    rewrite (nsum_0 _ _ 0 p).
    2:{ intros j Hj. unfold L0. replace (p <=? j) with false by (symmetry; apply Z.leb_gt; lia). rewrite nconj_0. ring. }
    rewrite (nsum_0 _ _ (p + 1) s).
    2:{ intros j Hj. rewrite HL by lia. ring. }
    unfold L0. rewrite Z.leb_refl. intros EQ.
    assert (NZ : nmul (nconj (L p p)) (x p) <> n0).
    { apply nz_mul; [apply nz_conj, (chol_diag_nz R rp n SS L E); lia|assumption]. }
    apply NZ. rewrite <- EQ. ring.
  Qed.

  Lemma bad_not_pd : forall s, 0 <= s < n -> good s -> badp R (rp (piv L SS s)) = true -> ~ pos_def P (s + 1) SS.
  Proof.
    intros s Hs HG HB HPD. rewrite piv_rp in HB by lia.
    set (T := fun l j => nconj (L0 j l)).
    set (z := solve_along T [] (zdown s) (fun l => nopp (nconj (L s l)))).
    set (x := fun i => if i =? s then n1 else z i).
    assert (HZ : forall l, 0 <= l < s -> nsum (fun j => nmul (nconj (L0 j l)) (x j)) 0 (s + 1) = n0).
    { intros l Hl. rewrite nsum_snoc by lia.
      rewrite (nsum_ext F _ (fun j => nmul (T l j) (z j))).
      - unfold z. rewrite solve_upper.
        + unfold x. rewrite Z.eqb_refl. unfold L0. replace (l <=? s) with true by (symmetry; apply Z.leb_le; lia). ring.
        + intros i Hi. unfold T, L0. rewrite Z.leb_refl. apply nz_conj, (chol_diag_nz R rp n SS L E). lia.
        + intros i j Hi Hj. unfold T, L0. replace (i <=? j) with false by (symmetry; apply Z.leb_gt; lia). apply nconj_0.
        + assumption.
      - intros j Hj. unfold x, T. replace (j =? s) with false by (symmetry; apply Z.eqb_neq; lia). reflexivity. }
    assert (Q : nsum (fun i => nsum (fun j => nmul (nconj (x i)) (nmul (SS i j) (x j))) 0 (s + 1)) 0 (s + 1) = piv L SS s).
    { set (G i j := nsum (fun l => nmul (L0 i l) (nconj (L0 j l))) 0 s).
      assert (EG : forall i j, 0 <= i < s + 1 -> 0 <= j < s + 1 ->
        SS i j = nadd (G i j) (if (i =? s) && (j =? s) then piv L SS s else n0)).
      { intros i j Hi Hj. unfold G. destruct (Z.eqb_spec i s) as [->|Ni]; [destruct (Z.eqb_spec j s) as [->|Nj]|]; cbn [andb].
        - unfold piv. rewrite (nsum_ext F (fun l => nmul (L0 s l) (nconj (L0 s l))) (fun l => nmul (L s l) (nconj (L s l)))).
          + ring.
          + intros l Hl. unfold L0. replace (l <=? s) with true by (symmetry; apply Z.leb_le; lia). reflexivity.
        - rewrite gram_off by (auto; lia). ring.
        - rewrite gram_off by (auto; lia). ring. }
      transitivity (nadd (nsum (fun i => nsum (fun j => nmul (nconj (x i)) (nmul (G i j) (x j))) 0 (s + 1)) 0 (s + 1))
        (nsum (fun i => nsum (fun j => nmul (nconj (x i)) (nmul (if (i =? s) && (j =? s) then piv L SS s else n0) (x j))) 0 (s + 1)) 0 (s + 1))).
      - rewrite <- nsum_add. apply nsum_ext. intros i Hi. rewrite <- nsum_add. apply nsum_ext. intros j Hj.
        rewrite (EG i j) by assumption. ring.
      - unfold G. rewrite quad_form. rewrite (nsum_0 _ _ 0 s).
        2:{ intros l Hl. rewrite HZ by assumption. ring. }
        rewrite (nsum_snoc _ _ 0 s) by lia. rewrite (nsum_0 _ _ 0 s).
        2:{ intros i Hi. apply nsum_0. intros j Hj. replace (i =? s) with false by (symmetry; apply Z.eqb_neq; lia).
            cbn [andb]. ring. }
        rewrite (nsum_snoc _ _ 0 s) by lia. rewrite (nsum_0 _ _ 0 s).
        2:{ intros j Hj. replace (j =? s) with false by (symmetry; apply Z.eqb_neq; lia). rewrite andb_false_r. ring. }
        unfold x. rewrite Z.eqb_refl. cbn [andb]. rewrite nconj_1. ring. }
    assert (FP : fpos P (piv L SS s)).
    { rewrite <- Q. apply HPD. exists s. split; [lia|]. unfold x. rewrite Z.eqb_refl. apply (rt_one F R). }
    assert (RL : nconj (piv L SS s) = piv L SS s) by (apply piv_real; symmetry; apply HS; lia).
    apply (HR _ RL FP). unfold badp in HB. destruct (rt R (piv L SS s)); [discriminate|reflexivity].
  Qed.
End Hpd.
