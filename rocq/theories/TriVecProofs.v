(* Block algorithms for triangular systems, on one column (or row) at a time. *)
From Coq Require Import ZArith List Bool Lia Ring.
From Verif Require Import Base NumModel NumProofs FieldModel SimProofs TriModel GemmProofs.
Import ListNotations.
Open Scope Z_scope.

(* ---- positions in an increasing or decreasing list ---- *)
Lemma zrange_split : forall done a b p rest, zrange a b = done ++ p :: rest ->
  done = zrange a p /\ rest = zrange (p + 1) b /\ a <= p < b.
Proof.
  induction done as [|d done IH]; intros a b p rest E.
  - destruct (Z_lt_le_dec a b) as [L|L]; [|rewrite zrange_nil in E by lia; discriminate].
    rewrite zrange_cons in E by lia. cbn in E. injection E as <- <-.
    rewrite zrange_nil by lia. repeat split; lia.
  - destruct (Z_lt_le_dec a b) as [L|L]; [|rewrite zrange_nil in E by lia; discriminate].
    rewrite zrange_cons in E by lia. cbn in E. injection E as <- E.
    destruct (IH _ _ _ _ E) as (-> & -> & R). rewrite (zrange_cons a p) by lia. repeat split; lia.
Qed.

Lemma zdown_split : forall n done p rest, zdown n = done ++ p :: rest ->
  rev done = zrange (p + 1) n /\ rev rest = zrange 0 p /\ 0 <= p < n.
Proof.
  intros n done p rest E. unfold zdown in E. apply (f_equal (@rev Z)) in E.
  rewrite rev_involutive, rev_app_distr in E. cbn in E. rewrite <- app_assoc in E. cbn in E.
  apply zrange_split in E. destruct E as (-> & -> & R). auto.
Qed.

Lemma in_zdown : forall n x, In x (zdown n) <-> 0 <= x < n.
Proof. intros. unfold zdown. rewrite <- in_rev. apply in_zrange. Qed.
Lemma NoDup_zdown : forall n, NoDup (zdown n).
Proof. intros. apply NoDup_rev. apply NoDup_zrange. Qed.

Section Vec.
  Context {N : numbers}.
  Add Ring num_ring_vec : (nring N).

  Definition lsum (f : Z -> N) (L : list Z) : N := fold_right (fun l s => nadd (f l) s) n0 L.

  Lemma lsum_zrange : forall f a b, lsum f (zrange a b) = nsum f a b.
  Proof. reflexivity. Qed.
  Lemma lsum_cons : forall f a L, lsum f (a :: L) = nadd (f a) (lsum f L).
  Proof. reflexivity. Qed.
  Lemma lsum_app : forall f a b, lsum f (a ++ b) = nadd (lsum f a) (lsum f b).
  Proof. intros f a b. unfold lsum. rewrite fold_right_app. apply fold_acc. Qed.
  Lemma lsum_rev : forall f a, lsum f (rev a) = lsum f a.
  Proof.
    intros f a. induction a as [|x a IH]; [reflexivity|]. cbn [rev]. rewrite lsum_app, IH. unfold lsum. cbn [fold_right]. ring.
  Qed.
  Lemma lsum_zdown : forall f n, lsum f (zdown n) = nsum f 0 n.
  Proof. intros. unfold zdown. rewrite lsum_rev. reflexivity. Qed.
  Lemma lsum_ext : forall f g a, (forall x, In x a -> f x = g x) -> lsum f a = lsum g a.
  Proof.
    intros f g a. induction a as [|x a IH]; intros H; [reflexivity|]. rewrite ?lsum_cons.
    rewrite H by (left; reflexivity). apply f_equal. apply IH. intros. apply H. right; assumption.
  Qed.
  Lemma lsum_0 : forall f a, (forall x, In x a -> f x = n0) -> lsum f a = n0.
  Proof.
    intros f a. induction a as [|x a IH]; intros H; [reflexivity|]. rewrite ?lsum_cons.
    rewrite H by (left; reflexivity). rewrite IH; [ring|]. intros. apply H. right; assumption.
  Qed.

  Lemma nsum_rev : forall (f : Z -> N) n, 0 <= n -> nsum (fun s => f (n - 1 - s)) 0 n = nsum f 0 n.
  Proof.
    intros f n. pattern n. apply (zrange_ind_hi _ 0); clear n.
    - intros n H1 H2. rewrite !nsum_nil by lia. reflexivity.
    - intros n H1 IH _. rewrite nsum_cons by lia. rewrite (nsum_snoc N f) by lia. rewrite <- IH by lia.
      replace (n + 1 - 1 - 0) with n by lia.
      replace (nsum (fun s => f (n + 1 - 1 - s)) (0 + 1) (n + 1)) with (nsum (fun s => f (n - 1 - s)) 0 n).
      + ring.
      + rewrite nsum_shift. apply nsum_ext. intros i Hi. f_equal. lia.
  Qed.

  Variables (nb K : Z) (T : Z -> Z -> N).
  Hypotheses (Hb : 0 < nb) (HK : 0 <= K).
  Let nt := ntl nb K.

  Definition blk (f : Z -> N) (k : Z) : N := nsum f (k * nb) (Z.min ((k + 1) * nb) K).
  Definition vtr (p : Z) (a : N) (x : Z -> N) (r : Z) : N :=
    if r / nb =? p then nmul a (blk (fun l => nmul (T r l) (x l)) p) else x r.
  Definition vge (p k : Z) (a b : N) (x : Z -> N) (r : Z) : N :=
    if r / nb =? p then nadd (nmul a (blk (fun l => nmul (T r l) (x l)) k)) (nmul b (x r)) else x r.

  Lemma blk_div : forall k l, k * nb <= l < Z.min ((k + 1) * nb) K -> l / nb = k.
  Proof. intros k l Hl. symmetry. apply Z.div_unique with (r := l - k * nb); [left|]; lia. Qed.

  Lemma blk_ext : forall k f g, (forall l, l / nb = k -> 0 <= l -> l < K -> f l = g l) -> 0 <= k -> blk f k = blk g k.
  Proof. intros k f g H Hk. apply nsum_ext. intros l Hl. apply H; [apply blk_div; assumption|nia|lia]. Qed.
  Lemma blk_0 : forall k f, (forall l, l / nb = k -> f l = n0) -> blk f k = n0.
  Proof. intros k f H. apply nsum_0. intros l Hl. apply H. apply blk_div; assumption. Qed.

  Lemma blk_all : forall f, nsum (blk f) 0 nt = nsum f 0 K.
  Proof.
    intros f. unfold blk. assert (0 <= nt) by (apply Z.div_pos; lia).
    rewrite nsum_tiles; auto.
    - pose proof (ntl_top nb K Hb HK). unfold nt. replace (Z.min (ntl nb K * nb) K) with K by lia. reflexivity.
    - destruct (Z.eq_dec nt 0) as [E|E]; [left; assumption|right].
      assert (nt - 1 < nt) as L by lia. apply ntl_spec in L; auto; lia.
  Qed.

  Lemma tile_in : forall r, 0 <= r < K -> 0 <= r / nb < nt.
  Proof.
    intros r Hr. split; [apply Z.div_pos; lia|]. apply ntl_spec; auto; [apply Z.div_pos; lia|].
    destruct (div_mod_pos r nb Hb). lia.
  Qed.

  (* ---- multiplication ---- *)
  Lemma vge_fold : forall ks p a x r, ~ In p ks -> (forall k, In k ks -> 0 <= k) ->
    fold_left (fun x k => vge p k a n1 x) ks x r
    = if r / nb =? p then nadd (lsum (fun k => nmul a (blk (fun l => nmul (T r l) (x l)) k)) ks) (x r) else x r.
  Proof.
    induction ks as [|k ks IH]; intros p a x r Hp Hks; cbn [fold_left].
    - destruct (r / nb =? p); cbn; [ring|reflexivity].
    - rewrite IH; [|intros H; apply Hp; right; assumption|intros; apply Hks; right; assumption].
      destruct (r / nb =? p) eqn:E; [|unfold vge; rewrite E; reflexivity].
      unfold vge at 2. rewrite E. rewrite lsum_cons.
      rewrite (lsum_ext _ (fun k => nmul a (blk (fun l => nmul (T r l) (x l)) k))).
      + ring.
      + intros k' Hk'. apply f_equal. apply blk_ext; [|apply Hks; right; assumption].
        intros l El _ _. unfold vge.
        replace (l / nb =? p) with false; [reflexivity|]. symmetry. apply Z.eqb_neq. intros E'. apply Hp.
        right. congruence.
  Qed.

  Definition vmul (a : N) (ks : Z -> list Z) (os : list Z) (x : Z -> N) : Z -> N :=
    fold_left (fun x p => fold_left (fun x k => vge p k a n1 x) (ks p) (vtr p a x)) os x.

  Lemma vmul_val : forall a ks os x r, NoDup os -> (forall p, In p os -> 0 <= p) ->
    (forall p k, In p os -> In k (ks p) -> 0 <= k) ->
    (forall done p rest k, os = done ++ p :: rest -> In k (ks p) -> k <> p /\ ~ In k done) ->
    vmul a ks os x r
    = if existsb (Z.eqb (r / nb)) os
      then nmul a (nadd (blk (fun l => nmul (T r l) (x l)) (r / nb))
                        (lsum (blk (fun l => nmul (T r l) (x l))) (ks (r / nb))))
      else x r.
  Proof.
    intros a ks os. induction os as [|p os IH]; intros x r ND HP HKS HL; [reflexivity|].
    unfold vmul in *. cbn [fold_left existsb].
    inversion ND as [|? ? N1 N2]; subst.
    assert (HPK : ~ In p (ks p)).
    { intros H. destruct (HL [] p os p eq_refl H) as [H' _]. congruence. }
    assert (S1 : forall r, fold_left (fun x k => vge p k a n1 x) (ks p) (vtr p a x) r
              = if r / nb =? p then nmul a (nadd (blk (fun l => nmul (T r l) (x l)) p)
                                                 (lsum (blk (fun l => nmul (T r l) (x l))) (ks p)))
                else x r).
    { intros r'. rewrite vge_fold; [|assumption|intros k Hk; apply (HKS p k); [left; reflexivity|assumption]].
      unfold vtr at 2 3. destruct (r' / nb =? p) eqn:E; [|reflexivity].
      rewrite (lsum_ext _ (fun k => nmul a (blk (fun l => nmul (T r' l) (x l)) k))).
      - transitivity (nadd (nmul a (lsum (blk (fun l => nmul (T r' l) (x l))) (ks p)))
                           (nmul a (blk (fun l => nmul (T r' l) (x l)) p))); [|ring].
        apply f_equal2; [|reflexivity].
        generalize (ks p) as L. induction L as [|y L IHL]; [cbn; ring|]. rewrite !lsum_cons, IHL. ring.
      - intros k Hk. apply f_equal. apply blk_ext; [|apply (HKS p k); [left; reflexivity|assumption]].
        intros l El _ _. unfold vtr.
        replace (l / nb =? p) with false; [reflexivity|]. symmetry. apply Z.eqb_neq. intros E'.
        apply HPK. congruence. }
    remember (fold_left (fun x k => vge p k a n1 x) (ks p) (vtr p a x)) as x1 eqn:E1. clear E1.
    rewrite IH; auto.
    2:{ intros q Hq. apply HP. right; assumption. }
    2:{ intros q k Hq. apply HKS. right; assumption. }
    2:{ intros done q rest k E Hk. destruct (HL (p :: done) q rest k) as [H1 H2]; [cbn; congruence|assumption|].
        split; [assumption|]. intros H. apply H2. right; assumption. }
    destruct (existsb (Z.eqb (r / nb)) os) eqn:EX.
    - rewrite orb_true_r. apply existsb_exists in EX. destruct EX as (q & Hq & Eq). apply Z.eqb_eq in Eq.
      assert (Hne : r / nb <> p) by congruence.
      apply f_equal. apply f_equal2.
      + apply blk_ext.
        * intros l El _ _. rewrite S1. replace (l / nb =? p) with false; [reflexivity|].
          symmetry. apply Z.eqb_neq. congruence.
        * rewrite Eq. apply HP. right; assumption.
      + apply lsum_ext. intros k Hk. rewrite Eq in Hk. apply blk_ext.
        * intros l El _ _. rewrite S1. replace (l / nb =? p) with false; [reflexivity|].
          symmetry. apply Z.eqb_neq. intros E'. subst k.
          destruct (in_split _ _ Hq) as (a1 & a2 & EL). subst os.
          destruct (HL (p :: a1) q a2 (l / nb)) as [_ H2]; [reflexivity|assumption|]. apply H2. left; congruence.
        * apply (HKS q k); [right; assumption|assumption].
    - rewrite orb_false_r, S1. destruct (r / nb =? p) eqn:E; [|reflexivity].
      apply Z.eqb_eq in E. rewrite E. reflexivity.
  Qed.

  Lemma ex_in : forall L p, In p L -> existsb (Z.eqb p) L = true.
  Proof. intros L p H. apply existsb_exists. exists p. rewrite Z.eqb_refl. auto. Qed.

  Lemma vmul_up : forall a x r, 0 <= r < K -> (forall l, l < r -> T r l = n0) ->
    vmul a (fun p => zrange (p + 1) nt) (zrange 0 nt) x r = nmul a (nsum (fun l => nmul (T r l) (x l)) 0 K).
  Proof.
    intros a x r Hr HT. pose proof (tile_in r Hr) as Hp.
    rewrite vmul_val.
    - rewrite ex_in by (apply in_zrange; assumption). apply f_equal. rewrite lsum_zrange.
      rewrite <- blk_all. rewrite (nsum_app N _ 0 (r / nb) nt) by lia. rewrite (nsum_cons N _ (r / nb)) by lia.
      replace (nsum (blk (fun l => nmul (T r l) (x l))) 0 (r / nb)) with (n0 : N); [ring|].
      symmetry. apply nsum_0. intros k Hk. apply blk_0. intros l El. rewrite HT; [ring|].
      destruct (div_mod_pos l nb Hb). destruct (div_mod_pos r nb Hb). nia.
    - apply NoDup_zrange.
    - intros p H. apply in_zrange in H. lia.
    - intros p k H H'. apply in_zrange in H, H'. lia.
    - intros done p rest k E Hk. apply zrange_split in E. destruct E as (-> & -> & R).
      rewrite in_zrange in *. lia.
  Qed.

  Lemma vmul_down : forall a x r, 0 <= r < K -> (forall l, r < l -> T r l = n0) ->
    vmul a (fun p => zrange 0 p) (zdown nt) x r = nmul a (nsum (fun l => nmul (T r l) (x l)) 0 K).
  Proof.
    intros a x r Hr HT. pose proof (tile_in r Hr) as Hp.
    rewrite vmul_val.
    - rewrite ex_in by (apply in_zdown; assumption). apply f_equal. rewrite lsum_zrange.
      rewrite <- blk_all. rewrite (nsum_app N _ 0 (r / nb) nt) by lia. rewrite (nsum_cons N _ (r / nb)) by lia.
      replace (nsum (blk (fun l => nmul (T r l) (x l))) (r / nb + 1) nt) with (n0 : N); [ring|].
      symmetry. apply nsum_0. intros k Hk. apply blk_0. intros l El. rewrite HT; [ring|].
      destruct (div_mod_pos l nb Hb). destruct (div_mod_pos r nb Hb). nia.
    - apply NoDup_zdown.
    - intros p H. apply in_zdown in H. lia.
    - intros p k H H'. apply in_zdown in H. apply in_zrange in H'. lia.
    - intros done p rest k E Hk. apply zdown_split in E. destruct E as (E1 & E2 & R).
      rewrite in_zrange in Hk. rewrite in_rev, E1, in_zrange. lia.
  Qed.

  (* ---- solution ---- *)
  Variable Sv : Z -> (Z -> N) -> Z -> N.
  Hypothesis HSv : forall p b r, 0 <= r < K -> r / nb = p ->
    blk (fun l => nmul (T r l) (Sv p b l)) p = b r.
  Definition vts (p : Z) (a : N) (x : Z -> N) (r : Z) : N :=
    if r / nb =? p then Sv p (fun l => nmul a (x l)) r else x r.

  Variables (ord : Z -> Z) (la ga gb : Z -> N).
  Hypothesis ord_in : forall s, 0 <= s < nt -> 0 <= ord s < nt.
  Hypothesis ord_inv : forall s, 0 <= s < nt -> ord (ord s) = s.
  Hypothesis ord_sum : forall f : Z -> N, nsum (fun s => f (ord s)) 0 nt = nsum f 0 nt.
  Hypothesis Hla : forall t, 0 <= t < nt - 1 -> nmul (la (t + 1)) (ga t) = nopp n1 /\ nmul (la (t + 1)) (gb t) = la t.

  Definition vstep (x : Z -> N) (t : Z) : Z -> N :=
    fold_left (fun x m => vge (ord m) (ord t) (ga t) (gb t) x) (zrange (t + 1) nt) (vts (ord t) (la t) x).

  Lemma vge_rows : forall p a b m0 m1 x r, 0 <= m0 -> m1 <= nt -> 0 <= r < K -> 0 <= p < nt -> 
    (forall m, m0 <= m < m1 -> ord m <> p) ->
    fold_left (fun x m => vge (ord m) p a b x) (zrange m0 m1) x r
    = if (m0 <=? ord (r / nb)) && (ord (r / nb) <? m1)
      then nadd (nmul a (blk (fun l => nmul (T r l) (x l)) p)) (nmul b (x r)) else x r.
  Proof.
    intros p a b m0 m1. pattern m1. apply (zrange_ind_hi _ m0); clear m1.
    - intros m1 H x r H0 H1 Hr Hp Hd. rewrite zrange_nil by lia. cbn [fold_left].
      replace ((m0 <=? ord (r / nb)) && (ord (r / nb) <? m1)) with false; [reflexivity|].
      symmetry. apply andb_false_iff. rewrite Z.leb_gt, Z.ltb_ge. lia.
    - intros m1 H IH x r H0 H1 Hr Hp Hd. rewrite zrange_snoc by lia. rewrite fold_left_app. cbn [fold_left].
      pose proof (tile_in r Hr) as Ht. unfold vge at 1.
      assert (IH' : forall r, 0 <= r < K -> fold_left (fun x m => vge (ord m) p a b x) (zrange m0 m1) x r
         = if (m0 <=? ord (r / nb)) && (ord (r / nb) <? m1)
           then nadd (nmul a (blk (fun l => nmul (T r l) (x l)) p)) (nmul b (x r)) else x r).
      { intros r' Hr'. apply IH; auto; try lia. intros m Hm. apply Hd. lia. }
      destruct (Z.eqb_spec (r / nb) (ord m1)) as [E|E].
      + assert (E' : ord (r / nb) = m1) by (rewrite E; apply ord_inv; lia).
        replace ((m0 <=? ord (r / nb)) && (ord (r / nb) <? m1 + 1)) with true.
        2:{ symmetry. apply andb_true_iff. rewrite Z.leb_le, Z.ltb_lt. lia. }
        apply f_equal2.
        * apply f_equal. apply blk_ext; [|lia]. intros l El L1 L2. rewrite IH' by lia.
          replace ((m0 <=? ord (l / nb)) && (ord (l / nb) <? m1)) with false; [reflexivity|].
          symmetry. apply andb_false_iff. rewrite Z.leb_gt, Z.ltb_ge.
          destruct (Z_lt_le_dec (ord (l / nb)) m0); [lia|]. destruct (Z_lt_le_dec (ord (l / nb)) m1); [|lia].
          exfalso. apply (Hd (ord (l / nb))); [lia|]. rewrite ord_inv; [assumption|]. rewrite El. assumption.
        * apply f_equal. rewrite IH' by lia.
          replace ((m0 <=? ord (r / nb)) && (ord (r / nb) <? m1)) with false; [reflexivity|].
          symmetry. apply andb_false_iff. rewrite Z.leb_gt, Z.ltb_ge. lia.
      + rewrite IH' by assumption.
        replace (ord (r / nb) <? m1 + 1) with (ord (r / nb) <? m1); [reflexivity|].
        apply eq_true_iff_eq. rewrite !Z.ltb_lt. split; [lia|]. intros L.
        assert (ord (r / nb) <> m1) by (intros E'; apply E; rewrite <- E'; symmetry; apply ord_inv; assumption). lia.
  Qed.

  Lemma vstep_val : forall x t r, 0 <= t < nt -> 0 <= r < K ->
    vstep x t r = if ord (r / nb) <? t then x r
                  else if ord (r / nb) =? t then Sv (ord t) (fun l => nmul (la t) (x l)) r
                  else nadd (nmul (ga t) (blk (fun l => nmul (T r l) (Sv (ord t) (fun l => nmul (la t) (x l)) l)) (ord t)))
                            (nmul (gb t) (x r)).
  Proof.
    intros x t r Ht Hr. pose proof (tile_in r Hr) as Hp. unfold vstep.
    pose proof (ord_in t Ht) as Ot.
    rewrite vge_rows; auto; try lia.
    2:{ intros m Hm E. apply (f_equal ord) in E. rewrite !ord_inv in E by lia. lia. }
    assert (EQ : r / nb = ord t <-> ord (r / nb) = t).
    { split; intros E; [rewrite E; apply ord_inv; assumption|]. rewrite <- E. symmetry. apply ord_inv. assumption. }
    assert (NT : ord (r / nb) < nt) by (apply ord_in; assumption).
    unfold vts. destruct (Z.ltb_spec (ord (r / nb)) t) as [L|L].
    - replace ((t + 1 <=? ord (r / nb)) && (ord (r / nb) <? nt)) with false
        by (symmetry; apply andb_false_iff; rewrite Z.leb_gt, Z.ltb_ge; lia).
      replace (r / nb =? ord t) with false; [reflexivity|]. symmetry. apply Z.eqb_neq. intros E. apply EQ in E. lia.
    - destruct (Z.eqb_spec (ord (r / nb)) t) as [E|E].
      + replace ((t + 1 <=? ord (r / nb)) && (ord (r / nb) <? nt)) with false
          by (symmetry; apply andb_false_iff; rewrite Z.leb_gt, Z.ltb_ge; lia).
        replace (r / nb =? ord t) with true; [reflexivity|]. symmetry. apply Z.eqb_eq. apply EQ. assumption.
      + replace ((t + 1 <=? ord (r / nb)) && (ord (r / nb) <? nt)) with true
          by (symmetry; apply andb_true_iff; rewrite Z.leb_le, Z.ltb_lt; lia).
        replace (r / nb =? ord t) with false.
        2:{ symmetry. apply Z.eqb_neq. intros E'. apply EQ in E'. contradiction. }
        apply f_equal2; [|reflexivity]. apply f_equal. apply blk_ext; [|lia].
        intros l El _ _. replace (l / nb =? ord t) with true; [reflexivity|]. symmetry. apply Z.eqb_eq. assumption.
  Qed.

  Lemma vsolve_gen : forall (step : (Z -> N) -> Z -> Z -> N) b r,
    (forall x t r, 0 <= t < nt -> 0 <= r < K ->
       step x t r = if ord (r / nb) <? t then x r
                    else if ord (r / nb) =? t then Sv (ord t) (fun l => nmul (la t) (x l)) r
                    else nadd (nmul (ga t) (blk (fun l => nmul (T r l) (Sv (ord t) (fun l => nmul (la t) (x l)) l)) (ord t)))
                              (nmul (gb t) (x r))) ->
    (forall r l, 0 <= r < K -> 0 <= l < K -> ord (r / nb) < ord (l / nb) -> T r l = n0) ->
    0 <= r < K ->
    nsum (fun l => nmul (T r l) (fold_left step (zrange 0 nt) b l)) 0 K = nmul (la 0) (b r).
  Proof.
    intros step b r HST HT Hr.
    set (P := fun (x : Z -> N) r k => blk (fun l => nmul (T r l) (x l)) (ord k)).
    assert (INV : forall t, t <= nt -> let x := fold_left step (zrange 0 t) b in
      (forall r, 0 <= r < K -> ord (r / nb) < t -> nsum (P x r) 0 (ord (r / nb) + 1) = nmul (la 0) (b r)) /\
      (forall r, 0 <= r < K -> t <= ord (r / nb) ->
         nmul (la (Z.max 0 t)) (x r) = nsub (nmul (la 0) (b r)) (nsum (P x r) 0 t))).
    { intros t. pattern t. apply (zrange_ind_hi _ 0); clear t.
      - intros t Ht _. rewrite zrange_nil by lia. cbn [fold_left]. split.
        + intros r' Hr' L. pose proof (ord_in _ (tile_in r' Hr')). lia.
        + intros r' Hr' L. rewrite nsum_nil by lia. replace (Z.max 0 t) with 0 by lia. ring.
      - intros t Ht IH Hn. rewrite zrange_snoc by lia. rewrite fold_left_app. cbn [fold_left].
        destruct IH as [IA IB]; [lia|]. remember (fold_left step (zrange 0 t) b) as x eqn:Ex. clear Ex.
        replace (Z.max 0 t) with t in IB by lia. replace (Z.max 0 (t + 1)) with (t + 1) by lia.
        assert (HV : forall r, 0 <= r < K -> step x t r
                 = if ord (r / nb) <? t then x r
                   else if ord (r / nb) =? t then Sv (ord t) (fun l => nmul (la t) (x l)) r
                   else nadd (nmul (ga t) (blk (fun l => nmul (T r l) (Sv (ord t) (fun l => nmul (la t) (x l)) l)) (ord t)))
                             (nmul (gb t) (x r))).
        { intros r' Hr'. apply HST; [lia|assumption]. }
        remember (step x t) as x' eqn:Ex'. clear Ex'.
        assert (PO : forall r k, 0 <= k < t -> P x' r k = P x r k).
        { intros r' k Hk. unfold P. apply blk_ext; [|apply ord_in; lia]. intros l El L1 L2.
          rewrite HV by lia. rewrite El, ord_inv by lia.
          replace (k <? t) with true by (symmetry; apply Z.ltb_lt; lia). reflexivity. }
        assert (PT : forall r, P x' r t = blk (fun l => nmul (T r l) (Sv (ord t) (fun l => nmul (la t) (x l)) l)) (ord t)).
        { intros r'. unfold P. apply blk_ext; [|apply ord_in; lia]. intros l El L1 L2.
          rewrite HV by lia. rewrite El, ord_inv by lia. rewrite Z.ltb_irrefl, Z.eqb_refl. reflexivity. }
        assert (SUM : forall r k, k <= t -> nsum (P x' r) 0 k = nsum (P x r) 0 k).
        { intros r' k Hk. apply nsum_ext. intros i Hi. apply PO. lia. }
        split.
        + intros r' Hr' L. destruct (Z.eq_dec (ord (r' / nb)) t) as [E|E].
          * rewrite E. rewrite nsum_snoc by lia. rewrite SUM by lia. rewrite PT.
            rewrite HSv; [|assumption|rewrite <- E; symmetry; apply ord_inv; apply tile_in; assumption].
            rewrite IB by lia. ring.
          * rewrite SUM by lia. apply IA; [assumption|lia].
        + intros r' Hr' L. rewrite HV by assumption.
          replace (ord (r' / nb) <? t) with false by (symmetry; apply Z.ltb_ge; lia).
          replace (ord (r' / nb) =? t) with false by (symmetry; apply Z.eqb_neq; lia).
          rewrite nsum_snoc by lia. rewrite SUM by lia. rewrite PT.
          assert (OI := ord_in _ (tile_in r' Hr')). destruct (Hla t) as [H1 H2]; [lia|].
          transitivity (nadd (nmul (nmul (la (t + 1)) (ga t))
             (blk (fun l => nmul (T r' l) (Sv (ord t) (fun l => nmul (la t) (x l)) l)) (ord t)))
             (nmul (nmul (la (t + 1)) (gb t)) (x r'))); [ring|].
          rewrite H1, H2, IB by lia. ring. }
    destruct (INV nt (Z.le_refl nt)) as [IA _]. cbv zeta in IA.
    remember (fold_left step (zrange 0 nt) b) as x eqn:Ex. clear Ex INV.
    pose proof (tile_in r Hr) as Hp. pose proof (ord_in _ Hp) as Ho.
    rewrite <- (IA r Hr) by lia. rewrite <- blk_all. rewrite <- ord_sum.
    rewrite (nsum_app N _ 0 (ord (r / nb) + 1) nt) by lia.
    replace (nsum (fun s => blk (fun l => nmul (T r l) (x l)) (ord s)) (ord (r / nb) + 1) nt) with (n0 : N).
    - transitivity (nsum (P x r) 0 (ord (r / nb) + 1)); [|reflexivity]. unfold P. ring.
    - symmetry. apply nsum_0. intros k Hk. unfold blk. apply nsum_0. intros l Hl. rewrite HT; [ring|assumption| |].
      + assert (0 <= ord k) by (apply ord_in; lia). nia.
      + rewrite (blk_div _ _ Hl). rewrite ord_inv by lia. lia.
  Qed.
  Lemma vsolve : forall b r, (forall r l, 0 <= r < K -> 0 <= l < K -> ord (r / nb) < ord (l / nb) -> T r l = n0) ->
    0 <= r < K ->
    nsum (fun l => nmul (T r l) (fold_left vstep (zrange 0 nt) b l)) 0 K = nmul (la 0) (b r).
  Proof. intros b r. apply vsolve_gen. exact vstep_val. Qed.
End Vec.

(* ---- substitution ---- *)
Section Solve.
  Context {F : fields}.
  Add Ring num_ring_solve : (nring F).

  Lemma solve_out : forall T todo done (x : Z -> F) i, ~ In i todo -> solve_along T done todo x i = x i.
  Proof.
    intros T todo. induction todo as [|r todo IH]; intros done x i Hi; cbn; [reflexivity|].
    rewrite IH by (intros H; apply Hi; right; assumption).
    replace (i =? r) with false; [reflexivity|]. symmetry. apply Z.eqb_neq. intros ->. apply Hi. left; reflexivity.
  Qed.

  Lemma solve_gen : forall T todo done (x : Z -> F), NoDup todo -> (forall i, In i done -> ~ In i todo) ->
    (forall r, In r todo -> T r r <> n0) ->
    (forall a r c l, todo = a ++ r :: c -> In l c -> T r l = n0) ->
    forall r, In r todo ->
      nadd (lsum (fun l => nmul (T r l) (solve_along T done todo x l)) done)
           (lsum (fun l => nmul (T r l) (solve_along T done todo x l)) todo) = x r.
  Proof.
    intros T todo. induction todo as [|r0 todo IH]; intros done x ND HD HN HT r Hr; [destruct Hr|].
    inversion ND as [|? ? N1 N2]; subst. cbn [solve_along].
    set (v := nmul (finv (T r0 r0)) (nsub (x r0) (fold_right (fun l s => nadd (nmul (T r0 l) (x l)) s) n0 done))).
    set (x1 := fun i => if i =? r0 then v else x i).
    assert (O1 : forall l, ~ In l todo -> solve_along T (r0 :: done) todo x1 l = x1 l) by (intros; apply solve_out; assumption).
    destruct (Z.eq_dec r r0) as [->|Hne].
    - cbn [lsum fold_right]. fold (lsum (fun l => nmul (T r0 l) (solve_along T (r0 :: done) todo x1 l)) todo).
      rewrite (lsum_0 _ todo).
      2:{ intros l Hl. rewrite (HT [] r0 todo l eq_refl Hl). ring. }
      rewrite (lsum_ext _ (fun l => nmul (T r0 l) (x l)) done).
      2:{ intros l Hl. rewrite O1 by (intros H; apply (HD l Hl); right; assumption). unfold x1.
          replace (l =? r0) with false; [reflexivity|]. symmetry. apply Z.eqb_neq. intros ->.
          apply (HD r0 Hl). left; reflexivity. }
      rewrite O1 by assumption. unfold x1. rewrite Z.eqb_refl. unfold v.
      change (fold_right (fun l s => nadd (nmul (T r0 l) (x l)) s) n0 done) with (lsum (fun l => nmul (T r0 l) (x l)) done).
      transitivity (nadd (lsum (fun l => nmul (T r0 l) (x l)) done)
        (nmul (nmul (finv (T r0 r0)) (T r0 r0)) (nsub (x r0) (lsum (fun l => nmul (T r0 l) (x l)) done)))); [ring|].
      rewrite finv_l by (apply HN; left; reflexivity). ring.
    - assert (Hr' : In r todo) by (destruct Hr; [congruence|assumption]).
      assert (E : x1 r = x r).
      { unfold x1. replace (r =? r0) with false; [reflexivity|]. symmetry. apply Z.eqb_neq. assumption. }
      rewrite <- E. rewrite <- (IH (r0 :: done) x1 N2) with (r := r); auto.
      + cbn [lsum fold_right]. fold (lsum (fun l => nmul (T r l) (solve_along T (r0 :: done) todo x1 l)) todo).
        fold (lsum (fun l => nmul (T r l) (solve_along T (r0 :: done) todo x1 l)) done). ring.
      + intros i [->|Hi]; [assumption|]. intros H. apply (HD i Hi). right; assumption.
      + intros r' H. apply HN. right; assumption.
      + intros a r' c l E' Hl. apply (HT (r0 :: a) r' c l); [rewrite E'; reflexivity|assumption].
  Qed.

  Lemma solve_ext : forall T T' todo done (x x' : Z -> F),
    (forall r l, In r todo -> In l (done ++ todo) -> T r l = T' r l) ->
    (forall l, In l (done ++ todo) -> x l = x' l) ->
    forall i, In i (done ++ todo) -> solve_along T done todo x i = solve_along T' done todo x' i.
  Proof.
    intros T T' todo. induction todo as [|r todo IH]; intros done x x' HT HX i Hi; cbn [solve_along].
    - apply HX. assumption.
    - assert (RR : In r (r :: todo)) by (left; reflexivity).
      assert (RD : In r (done ++ r :: todo)) by (apply in_or_app; right; assumption).
      assert (SUB : forall l, In l ((r :: done) ++ todo) -> In l (done ++ r :: todo)).
      { intros l Hl. rewrite in_app_iff in *. cbn in *. tauto. }
      apply IH.
      + intros r' l H1 H2. apply HT; [right; assumption|auto].
      + intros l Hl. destruct (l =? r); [|apply HX; auto].
        rewrite (HT r r RR RD), (HX r RD). apply f_equal. apply f_equal.
        apply lsum_ext. intros l' Hl'. rewrite (HT r l' RR), (HX l'); try reflexivity; apply in_or_app; left; assumption.
      + rewrite in_app_iff in *. cbn in *. tauto.
  Qed.

  Lemma solve_lower : forall T n (x : Z -> F) r, (forall i, 0 <= i < n -> T i i <> n0) ->
    (forall i l, 0 <= i < n -> i < l < n -> T i l = n0) -> 0 <= r < n ->
    nsum (fun l => nmul (T r l) (solve_along T [] (zrange 0 n) x l)) 0 n = x r.
  Proof.
    intros T n x r HD HT Hr. rewrite <- (solve_gen T (zrange 0 n) [] x) with (r := r).
    - cbn [lsum fold_right]. rewrite lsum_zrange. ring.
    - apply NoDup_zrange.
    - intros i [].
    - intros i Hi. apply in_zrange in Hi. auto.
    - intros a i c l E Hl. apply zrange_split in E. destruct E as (-> & -> & R). apply in_zrange in Hl.
      apply HT; lia.
    - apply in_zrange. assumption.
  Qed.

  Lemma solve_upper : forall T n (x : Z -> F) r, (forall i, 0 <= i < n -> T i i <> n0) ->
    (forall i l, 0 <= i < n -> 0 <= l < i -> T i l = n0) -> 0 <= r < n ->
    nsum (fun l => nmul (T r l) (solve_along T [] (zdown n) x l)) 0 n = x r.
  Proof.
    intros T n x r HD HT Hr. rewrite <- (solve_gen T (zdown n) [] x) with (r := r).
    - cbn [lsum fold_right]. rewrite lsum_zdown. ring.
    - apply NoDup_zdown.
    - intros i [].
    - intros i Hi. apply in_zdown in Hi. auto.
    - intros a i c l E Hl. apply zdown_split in E. destruct E as (E1 & E2 & R).
      rewrite in_rev, E2, in_zrange in Hl. apply HT; lia.
    - apply in_zdown. assumption.
  Qed.
End Solve.
