(* Products of reflectors, their compact form, and pairs of mutually adjoint inverse operators. *)
From Coq Require Import ZArith List Ring Bool Lia.
From Verif Require Import Base NumModel NumProofs.
Import ListNotations.
Open Scope Z_scope.

Section Alg.
  Variable N : numbers.
  Add Ring alg_ring : (nring N).
  Local Open Scope num_scope.
  Notation vec := (Z -> N).

  Lemma nsum_sub : forall (f g : vec) a b, nsum (fun i => f i - g i) a b = nsum f a b - nsum g a b.
  Proof.
    intros f g a b. transitivity (nsum (fun i => f i + (- n1) * g i) a b).
    - apply nsum_ext. intros. ring.
    - rewrite nsum_add, nsum_mul_l. ring.
  Qed.

  Definition ee (i : Z) : vec := fun r => if (r =? i)%Z then n1 else n0.

  Lemma nsum_ee : forall (f : vec) i a b, (a <= i < b)%Z -> nsum (fun s => ee i s * f s) a b = f i.
  Proof.
    intros f i a b Hi. rewrite (nsum_app _ _ a i b) by lia. rewrite (nsum_cons _ _ i b) by lia.
    rewrite (nsum_0 _ _ a i), (nsum_0 _ _ (i + 1) b).
    - unfold ee. rewrite Z.eqb_refl. ring.
    - intros l Hl. unfold ee. destruct (Z.eqb_spec l i); [lia|]. ring.
    - intros l Hl. unfold ee. destruct (Z.eqb_spec l i); [lia|]. ring.
  Qed.

  Lemma conj_ee : forall i r, nconj (ee i r) = ee i r.
  Proof. intros. unfold ee. destruct (r =? i)%Z; [apply nconj_1|apply nconj_0]. Qed.

  Section Dim.
    Variable p : Z.

    Definition dot (x y : vec) : N := nsum (fun s => nconj (x s) * y s) 0 p.
    Definition same (x y : vec) : Prop := forall r, (0 <= r < p)%Z -> x r = y r.

    Lemma dot_ext : forall x x' y y', same x x' -> same y y' -> dot x y = dot x' y'.
    Proof. intros x x' y y' H1 H2. apply nsum_ext. intros s Hs. rewrite H1, H2 by assumption. reflexivity. Qed.
    Lemma dot_conj : forall x y, nconj (dot x y) = dot y x.
    Proof.
      intros. unfold dot. rewrite nconj_sum. apply nsum_ext. intros. rewrite nconj_mul, nconj_conj. ring.
    Qed.
    Lemma dot_ee : forall y r, (0 <= r < p)%Z -> dot (ee r) y = y r.
    Proof.
      intros y r Hr. unfold dot. rewrite <- (nsum_ee y r 0 p Hr). apply nsum_ext. intros. rewrite conj_ee. reflexivity.
    Qed.
    Lemma dot_sub_r : forall x y z, dot x (fun r => y r - z r) = dot x y - dot x z.
    Proof. intros. unfold dot. rewrite <- nsum_sub. apply nsum_ext. intros. ring. Qed.
    Lemma dot_scale_r : forall x y c, dot x (fun r => y r * c) = dot x y * c.
    Proof. intros. unfold dot. rewrite <- nsum_mul_r. apply nsum_ext. intros. ring. Qed.

    (* operators with an adjoint inverse *)
    Record uop (f g : vec -> vec) : Prop := {
      u_adj : forall x y, dot x (f y) = dot (g x) y;
      u_fg : forall x, same (f (g x)) x;
      u_gf : forall x, same (g (f x)) x }.

    Lemma uop_sym : forall f g, uop f g -> uop g f.
    Proof.
      intros f g [H1 H2 H3]. split; auto. intros x y.
      rewrite <- (dot_conj (g y) x), <- (dot_conj y (f x)). rewrite H1. reflexivity.
    Qed.

    (* the matrix of an operator *)
    Definition umat (f : vec -> vec) (r s : Z) : N := f (ee s) r.

    Lemma uop_value : forall f g, uop f g -> forall x r, (0 <= r < p)%Z ->
      f x r = nsum (fun s => nconj (g (ee r) s) * x s) 0 p.
    Proof. intros f g [H _ _] x r Hr. rewrite <- (dot_ee (f x) r Hr), H. reflexivity. Qed.

    Lemma umat_conj : forall f g, uop f g -> forall r s, (0 <= r < p)%Z -> (0 <= s < p)%Z ->
      umat f r s = nconj (umat g s r).
    Proof.
      intros f g H r s Hr Hs. unfold umat. rewrite (uop_value f g H) by assumption.
      transitivity (nsum (fun l => ee s l * nconj (g (ee r) l)) 0 p).
      - apply nsum_ext. intros. ring.
      - apply nsum_ee. assumption.
    Qed.

    Lemma uop_matrix : forall f g, uop f g -> forall x r, (0 <= r < p)%Z ->
      f x r = nsum (fun s => umat f r s * x s) 0 p.
    Proof.
      intros f g H x r Hr. rewrite (uop_value f g H) by assumption. apply nsum_ext. intros s Hs.
      rewrite (umat_conj f g H) by assumption. reflexivity.
    Qed.

    Lemma uop_ext : forall f g, uop f g -> forall x y, same x y -> same (f x) (f y).
    Proof.
      intros f g H x y E r Hr. rewrite !(uop_matrix f g H) by assumption. apply nsum_ext. intros s Hs.
      rewrite E by assumption. reflexivity.
    Qed.

    Lemma uop_zero : forall f g, uop f g -> forall x, same x (fun _ => n0) -> same (f x) (fun _ => n0).
    Proof.
      intros f g H x E r Hr. rewrite !(uop_matrix f g H) by assumption. apply nsum_0. intros s Hs.
      rewrite E by assumption. ring.
    Qed.

    Lemma uop_id : uop (fun x => x) (fun x => x).
    Proof. split; intros; try reflexivity; intros r Hr; reflexivity. Qed.

    Lemma uop_comp : forall f g f' g', uop f g -> uop f' g' ->
      uop (fun x => f (f' x)) (fun x => g' (g x)).
    Proof.
      intros f g f' g' H H'. split.
      - intros x y. rewrite (u_adj _ _ H), (u_adj _ _ H'). reflexivity.
      - intros x r Hr. rewrite (uop_ext f g H _ (g x)); [apply (u_fg _ _ H); assumption| |assumption].
        apply (u_fg _ _ H').
      - intros x r Hr. rewrite (uop_ext g' f' (uop_sym _ _ H') _ (f' x)); [apply (u_gf _ _ H'); assumption| |assumption].
        apply (u_gf _ _ H).
    Qed.

    Lemma uop_replace : forall f g f' g', uop f g -> (forall x, same (f' x) (f x)) -> (forall x, same (g' x) (g x)) ->
      uop f' g'.
    Proof.
      intros f g f' g' H E1 E2. split.
      - intros x y. rewrite (dot_ext x x (f' y) (f y)), (dot_ext (g' x) (g x) y y); auto; try (intros r Hr; reflexivity).
        apply (u_adj _ _ H).
      - intros x r Hr. rewrite E1 by assumption. rewrite (uop_ext f g H _ (g x)); auto. apply (u_fg _ _ H); assumption.
      - intros x r Hr. rewrite E2 by assumption. rewrite (uop_ext g f (uop_sym _ _ H) _ (f x)); auto.
        apply (u_gf _ _ H); assumption.
    Qed.

    (* one reflector *)
    Definition hh (t : N) (v x : vec) : vec := fun r => x r - v r * (t * dot v x).
    Definition unit_cond (t : N) (v : vec) : Prop := t + nconj t = t * nconj t * dot v v.

    Lemma hh_ext : forall t v v' x x', same v v' -> same x x' -> same (hh t v x) (hh t v' x').
    Proof. intros t v v' x x' E1 E2 r Hr. unfold hh. rewrite E1, E2, (dot_ext v v' x x') by assumption. reflexivity. Qed.

    Lemma dot_hh : forall t y v x, dot y (hh t v x) = dot y x - dot y v * (t * dot v x).
    Proof. intros. unfold hh. rewrite dot_sub_r, dot_scale_r. reflexivity. Qed.

    Lemma hh_adj : forall t v x y, dot x (hh t v y) = dot (hh (nconj t) v x) y.
    Proof.
      intros. rewrite dot_hh. rewrite <- (dot_conj y (hh (nconj t) v x)), dot_hh.
      rewrite nconj_sub, !nconj_mul, !dot_conj, nconj_conj. ring.
    Qed.

    Lemma hh_hh : forall t v x r, unit_cond t v -> hh (nconj t) v (hh t v x) r = x r.
    Proof.
      intros t v x r H. unfold hh at 1. rewrite dot_hh. unfold hh. unfold unit_cond in H.
      transitivity (x r - v r * dot v x * ((t + nconj t) - t * nconj t * dot v v)); [ring|].
      rewrite H. ring.
    Qed.

    Lemma unit_cond_conj : forall t v, unit_cond t v -> unit_cond (nconj t) v.
    Proof. intros t v H. unfold unit_cond in *. rewrite nconj_conj. rewrite <- (Radd_comm (nring N)), H. ring. Qed.

    Lemma hh_uop : forall t v, unit_cond t v -> uop (hh t v) (hh (nconj t) v).
    Proof.
      intros t v H. split.
      - intros. apply hh_adj.
      - intros x r Hr. rewrite <- (nconj_conj _ t) at 1. apply hh_hh. apply unit_cond_conj. assumption.
      - intros x r Hr. apply hh_hh. assumption.
    Qed.

    (* products of the reflectors a, ..., b-1 of the columns of V with scalars tau:
       hC is the product of the conjugate transposes in ascending order, hN of the reflectors
       in descending order *)
    Variables (V : Z -> Z -> N) (tau : Z -> N).
    Definition colv (c : Z) : vec := fun r => V r c.
    Definition hC (a b : Z) (x : vec) : vec :=
      fold_left (fun y c => hh (nconj (tau c)) (colv c) y) (zrange a b) x.
    Definition hN (a b : Z) (x : vec) : vec :=
      fold_right (fun c y => hh (tau c) (colv c) y) x (zrange a b).

    Lemma hC_nil : forall a b x, (b <= a)%Z -> hC a b x = x.
    Proof. intros. unfold hC. rewrite zrange_nil by lia. reflexivity. Qed.
    Lemma hC_snoc : forall a b x, (a <= b)%Z -> hC a (b + 1) x = hh (nconj (tau b)) (colv b) (hC a b x).
    Proof. intros. unfold hC. rewrite (zrange_app a b (b + 1)), fold_left_app by lia. rewrite (zrange_cons b), zrange_nil by lia. reflexivity. Qed.
    Lemma hC_app : forall a b c x, (a <= b <= c)%Z -> hC a c x = hC b c (hC a b x).
    Proof. intros. unfold hC. rewrite (zrange_app a b c), fold_left_app by lia. reflexivity. Qed.
    Lemma hN_nil : forall a b x, (b <= a)%Z -> hN a b x = x.
    Proof. intros. unfold hN. rewrite zrange_nil by lia. reflexivity. Qed.
    Lemma hN_snoc : forall a b x, (a <= b)%Z -> hN a (b + 1) x = hN a b (hh (tau b) (colv b) x).
    Proof. intros. unfold hN. rewrite (zrange_app a b (b + 1)), fold_right_app by lia. rewrite (zrange_cons b), zrange_nil by lia. reflexivity. Qed.
    Lemma hN_app : forall a b c x, (a <= b <= c)%Z -> hN a c x = hN a b (hN b c x).
    Proof. intros. unfold hN. rewrite (zrange_app a b c), fold_right_app by lia. reflexivity. Qed.

    Lemma h_uop : forall a b, (forall c, (a <= c < b)%Z -> unit_cond (tau c) (colv c)) -> uop (hN a b) (hC a b).
    Proof.
      intros a b. destruct (Z.leb_spec b a) as [L|L].
      { intros _. eapply uop_replace; [apply uop_id| |]; intros x r Hr; [rewrite hN_nil|rewrite hC_nil]; auto. }
      assert (G : forall k, (0 <= k)%Z -> (forall c, (a <= c < a + k)%Z -> unit_cond (tau c) (colv c)) ->
        uop (hN a (a + k)) (hC a (a + k))).
      { intros k Hk. pattern k. apply natlike_ind; [| |assumption].
        - intros _. eapply uop_replace; [apply uop_id| |]; intros x r Hr; [rewrite hN_nil|rewrite hC_nil]; auto; lia.
        - intros n Hn IH HC. unfold Z.succ. 
          pose proof (uop_comp _ _ _ _ (IH (fun c Hc => HC c ltac:(lia))) (hh_uop (tau (a + n)%Z) (colv (a + n)%Z) (HC (a + n)%Z ltac:(lia)))) as U.
          eapply uop_replace; [exact U| |]; intros x r Hr; cbv beta; rewrite Z.add_assoc.
          + rewrite hN_snoc by lia. reflexivity.
          + rewrite hC_snoc by lia. reflexivity. }
      intros H. specialize (G (b - a)%Z ltac:(lia)). replace (a + (b - a))%Z with b in G by lia. apply G. assumption.
    Qed.

    (* the compact form: T is the upper triangular factor of the reflectors i0, i0+1, ... *)
    Variables (i0 : Z) (T : Z -> Z -> N).
    Definition tu (a b : Z) : N := if (a <=? b)%Z then T a (i0 + b)%Z else n0.
    Definition t_good (kb : Z) : Prop := forall c, (0 <= c < kb)%Z ->
      T c (i0 + c)%Z = tau (i0 + c)%Z /\
      forall a, (0 <= a < c)%Z -> T a (i0 + c)%Z =
        nsum (fun b => tu a b * (- tau (i0 + c)%Z * dot (colv (i0 + b)) (colv (i0 + c)))) 0 c.

    Definition wN (kb : Z) (x : vec) : vec := fun r => x r -
      nsum (fun a => V r (i0 + a)%Z * nsum (fun b => tu a b * dot (colv (i0 + b)) x) 0 kb) 0 kb.
    Definition wC (kb : Z) (x : vec) : vec := fun r => x r -
      nsum (fun a => V r (i0 + a)%Z * nsum (fun b => nconj (tu b a) * dot (colv (i0 + b)) x) 0 kb) 0 kb.

    Lemma tu_gt : forall a b, (b < a)%Z -> tu a b = n0.
    Proof. intros. unfold tu. destruct (Z.leb_spec a b); [lia|reflexivity]. Qed.
    Lemma tu_le : forall a b, (a <= b)%Z -> tu a b = T a (i0 + b)%Z.
    Proof. intros. unfold tu. destruct (Z.leb_spec a b); [reflexivity|lia]. Qed.

    Lemma wN_step : forall kb x r, (0 <= kb)%Z -> t_good (kb + 1) ->
      wN (kb + 1) x r = wN kb (hh (tau (i0 + kb)%Z) (colv (i0 + kb)) x) r.
    Proof.
      intros kb x r Hk HT. destruct (HT kb ltac:(lia)) as [E1 E2].
      unfold wN. rewrite nsum_snoc by lia. rewrite nsum_snoc by lia.
      rewrite (nsum_0 _ (fun b => tu kb b * dot (colv (i0 + b)) x) 0 kb). 2:{ intros b Hb. rewrite tu_gt by lia. ring. }
      rewrite (tu_le kb kb), E1 by lia.
      set (dx := dot (colv (i0 + kb)) x). set (t := tau (i0 + kb)%Z) in *.
      transitivity (x r - V r (i0 + kb)%Z * (t * dx) -
        nsum (fun a => V r (i0 + a)%Z * nsum (fun b => tu a b * dot (colv (i0 + b)) x) 0 kb
                       + V r (i0 + a)%Z * (T a (i0 + kb)%Z * dx)) 0 kb).
      { rewrite (nsum_ext _ (fun a => V r (i0 + a)%Z * nsum (fun b => tu a b * dot (colv (i0 + b)) x) 0 (kb + 1))
          (fun a => V r (i0 + a)%Z * nsum (fun b => tu a b * dot (colv (i0 + b)) x) 0 kb
                       + V r (i0 + a)%Z * (T a (i0 + kb)%Z * dx)) 0 kb).
        - ring.
        - intros a Ha. rewrite nsum_snoc by lia. rewrite (tu_le a kb) by lia. unfold dx. ring. }
      unfold hh at 1. change (colv (i0 + kb) r) with (V r (i0 + kb)%Z). fold dx.
      f_equal. apply nsum_ext. intros a Ha. rewrite E2 by lia.
      transitivity (V r (i0 + a)%Z * (nsum (fun b => tu a b * dot (colv (i0 + b)) x) 0 kb
        + nsum (fun b => tu a b * (- t * dot (colv (i0 + b)) (colv (i0 + kb))) * dx) 0 kb)).
      { rewrite nsum_mul_r. ring. }
      f_equal. rewrite <- nsum_add. apply nsum_ext. intros b Hb. rewrite dot_hh. unfold dx. ring.
    Qed.

    Lemma wC_step : forall kb x r, (0 <= kb)%Z -> t_good (kb + 1) ->
      wC (kb + 1) x r = hh (nconj (tau (i0 + kb)%Z)) (colv (i0 + kb)) (wC kb x) r.
    Proof.
      intros kb x r Hk HT. destruct (HT kb ltac:(lia)) as [E1 E2].
      unfold wC at 1. rewrite nsum_snoc by lia. rewrite (nsum_snoc _ _ 0 kb) by lia.
      rewrite (tu_le kb kb), E1 by lia.
      set (dx := dot (colv (i0 + kb)) x). set (t := tau (i0 + kb)%Z) in *.
      rewrite (nsum_ext _ (fun a => V r (i0 + a)%Z * nsum (fun b => nconj (tu b a) * dot (colv (i0 + b)) x) 0 (kb + 1))
          (fun a => V r (i0 + a)%Z * nsum (fun b => nconj (tu b a) * dot (colv (i0 + b)) x) 0 kb) 0 kb).
      2:{ intros a Ha. rewrite nsum_snoc by lia. rewrite (tu_gt kb a) by lia. rewrite nconj_0. ring. }
      unfold hh. change (colv (i0 + kb) r) with (V r (i0 + kb)%Z).
      assert (D : dot (colv (i0 + kb)) (wC kb x) = dx - nsum (fun a => dot (colv (i0 + kb)) (colv (i0 + a))
                    * nsum (fun b => nconj (tu b a) * dot (colv (i0 + b)) x) 0 kb) 0 kb).
      { unfold wC. rewrite dot_sub_r. fold dx. f_equal. unfold dot at 1.
        transitivity (nsum (fun s => nsum (fun a => nconj (colv (i0 + kb) s) * (V s (i0 + a)%Z
           * nsum (fun b => nconj (tu b a) * dot (colv (i0 + b)) x) 0 kb)) 0 kb) 0 p).
        { apply nsum_ext. intros s Hs. rewrite nsum_mul_l. reflexivity. }
        rewrite nsum_swap. apply nsum_ext. intros a Ha. rewrite <- dot_scale_r. apply nsum_ext. intros s Hs.
        unfold colv. ring. }
      rewrite D.
      assert (E : nsum (fun b => nconj (tu b kb) * dot (colv (i0 + b)) x) 0 kb =
        - (nconj t * nsum (fun a => dot (colv (i0 + kb)) (colv (i0 + a))
                    * nsum (fun b => nconj (tu b a) * dot (colv (i0 + b)) x) 0 kb) 0 kb)).
      { transitivity (nsum (fun b => nsum (fun a => (- nconj t) * (nconj (tu b a) *
            (dot (colv (i0 + kb)) (colv (i0 + a)) * dot (colv (i0 + b)) x))) 0 kb) 0 kb).
        - apply nsum_ext. intros b Hb. rewrite (tu_le b kb) by lia. rewrite E2 by lia. rewrite nconj_sum, <- nsum_mul_r.
          apply nsum_ext. intros a Ha. rewrite !nconj_mul, nconj_opp, dot_conj. ring.
        - rewrite nsum_swap. rewrite <- nsum_mul_l.
          transitivity ((- n1) * nsum (fun a => nconj t * (dot (colv (i0 + kb)) (colv (i0 + a))
                    * nsum (fun b => nconj (tu b a) * dot (colv (i0 + b)) x) 0 kb)) 0 kb); [|ring].
          rewrite <- nsum_mul_l. apply nsum_ext. intros a Ha.
          transitivity (nsum (fun b => (- nconj t * dot (colv (i0 + kb)) (colv (i0 + a))) * (nconj (tu b a) * dot (colv (i0 + b)) x)) 0 kb).
          + apply nsum_ext. intros. ring.
          + rewrite nsum_mul_l. ring. }
      rewrite E. unfold wC. ring.
    Qed.

    Lemma wN_h : forall kb x, (0 <= kb)%Z -> t_good kb -> same (wN kb x) (hN i0 (i0 + kb) x).
    Proof.
      intros kb x Hk. revert x. pattern kb. apply natlike_ind; [| |assumption].
      - intros x _ r Hr. rewrite hN_nil by lia. unfold wN. rewrite nsum_nil by lia. ring.
      - intros n Hn IH x HT r Hr. unfold Z.succ in *. rewrite wN_step by assumption.
        rewrite Z.add_assoc, hN_snoc by lia. apply IH; [|assumption].
        intros c Hc. apply HT. lia.
    Qed.

    Lemma wC_h : forall kb x, (0 <= kb)%Z -> t_good kb -> same (wC kb x) (hC i0 (i0 + kb) x).
    Proof.
      intros kb x Hk. pattern kb. apply natlike_ind; [| |assumption].
      - intros _ r Hr. rewrite hC_nil by lia. unfold wC. rewrite nsum_nil by lia. ring.
      - intros n Hn IH HT r Hr. unfold Z.succ in *. rewrite wC_step by assumption.
        rewrite Z.add_assoc, hC_snoc by lia. apply hh_ext; [intros ? ?; reflexivity| |assumption].
        apply IH. intros c Hc. apply HT. lia.
    Qed.
  End Dim.

  (* only the columns in range matter *)
  Lemma hC_cong : forall p V V' tau tau' a b x x',
    (forall c r, (a <= c < b)%Z -> (0 <= r < p)%Z -> V r c = V' r c) ->
    (forall c, (a <= c < b)%Z -> tau c = tau' c) -> same p x x' ->
    same p (hC p V tau a b x) (hC p V' tau' a b x').
  Proof.
    intros p V V' tau tau' a b x x' HV Ht Hx. unfold hC.
    assert (G : forall l, (forall c, In c l -> (a <= c < b)%Z) -> forall x x', same p x x' ->
      same p (fold_left (fun y c => hh p (nconj (tau c)) (colv V c) y) l x)
             (fold_left (fun y c => hh p (nconj (tau' c)) (colv V' c) y) l x')).
    { induction l as [|c l IH]; intros Hl y y' E; [exact E|]. cbn. apply IH; [intros; apply Hl; right; assumption|].
      rewrite (Ht c) by (apply Hl; left; reflexivity). apply hh_ext; [|assumption].
      intros r Hr. unfold colv. apply HV; [apply Hl; left; reflexivity|assumption]. }
    apply G; [|assumption]. intros c Hc. apply in_zrange in Hc. lia.
  Qed.
End Alg.
