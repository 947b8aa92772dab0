(* One block of the solves with the factors of a general band matrix, on one column. *)
From Coq Require Import ZArith List Bool Lia Ring.
From Verif Require Import Base NumModel NumProofs FieldModel TaskModel DescModel DescProofs OpProofs
  GemmModel GemmProofs MatModel MatSpec MatProofs TriModel TriVecProofs SwpModel SwpSpec SwpProofs PbtrsVecProofs
  GbtrsModel GbtrsSpec GbtrsVecProofs.
Import ListNotations.
Open Scope Z_scope.

Section Step.
  Context {N : numbers}.
  Add Ring num_ring_gbst : (nring N).
  Variables (nb n : Z) (a T : Z -> Z -> N).
  Hypotheses (Hb : 0 < nb) (Hn : 0 <= n).
  Variable Sv : Z -> (Z -> N) -> Z -> N.
  Let nt := ntl nb n.

  Lemma delta_sum : forall (v : N) i lo hi, lo <= i < hi -> nsum (fun l => if l =? i then v else n0) lo hi = v.
  Proof.
    intros v i lo hi Hi. rewrite (nsum_app _ _ lo i hi), (nsum_cons _ _ i hi) by lia. rewrite Z.eqb_refl.
    rewrite (nsum_0 _ _ lo i), (nsum_0 _ _ (i + 1) hi); [ring| |]; intros l Hl;
      (replace (l =? i) with false by (symmetry; apply Z.eqb_neq; lia)); reflexivity.
  Qed.

  Section Plain.
    Variables (k : Z) (ms : list Z).
    Hypothesis Hk : 0 <= k.
    Hypothesis HSv : forall b r, 0 <= r < n -> r / nb = k -> blk nb n (fun l => nmul (T r l) (Sv k b l)) k = b r.
    Hypothesis ms_nd : NoDup ms.
    Hypothesis ms_gt : forall m, In m ms -> k < m.
    Hypothesis HT : forall r l, 0 <= r < n -> 0 <= l < n -> l / nb = k -> r / nb = k \/ In (r / nb) ms ->
      T r l = if l <? r then a r l else if l =? r then n1 else n0.
    Hypothesis HZ : forall r l, 0 <= r < n -> 0 <= l < n -> l / nb = k -> k < r / nb -> ~ In (r / nb) ms -> a r l = n0.

    Lemma lower_step : forall x i, 0 <= i < n ->
      lower_times nb n a k (fold_left (fun x m => vge nb n T m k (nopp n1) n1 x) ms (vts nb Sv k n1 x)) i = x i.
    Proof.
      intros x i Hi.
      assert (NI : ~ In k ms) by (intros H; apply ms_gt in H; lia).
      assert (V : forall r, fold_left (fun x m => vge nb n T m k (nopp n1) n1 x) ms (vts nb Sv k n1 x) r
        = if existsb (Z.eqb (r / nb)) ms
          then nadd (nmul (nopp n1) (blk nb n (fun l => nmul (T r l) (vts nb Sv k n1 x l)) k)) (nmul n1 (vts nb Sv k n1 x r))
          else vts nb Sv k n1 x r) by (intros r; apply vge_list; assumption).
      unfold lower_times.
      rewrite (nsum_ext _ _ (fun j => if j <? i then nmul (a i j) (vts nb Sv k n1 x j) else n0)).
      2:{ intros j Hj. pose proof (blk_div nb n k j Hj) as Ej. rewrite V, Ej.
          replace (existsb (Z.eqb k) ms) with false; [reflexivity|]. symmetry. apply not_true_is_false. intros H.
          apply existsb_exists in H. destruct H as (y & Hy & Ey). apply Z.eqb_eq in Ey. congruence. }
      rewrite V.
      assert (IN : In (i / nb) ms <-> existsb (Z.eqb (i / nb)) ms = true).
      { rewrite existsb_exists. split; [intros H; exists (i / nb); split; [assumption|apply Z.eqb_refl]|].
        intros (y & Hy & Ey). apply Z.eqb_eq in Ey. congruence. }
      pose proof (div_mod_pos i nb Hb) as [DI MI].
      destruct (Z_lt_le_dec (i / nb) k) as [L|L].
      { destruct (existsb (Z.eqb (i / nb)) ms) eqn:EX; [apply proj2 in IN; specialize (IN eq_refl); apply ms_gt in IN; lia|].
        rewrite nsum_0.
        2:{ intros j Hj. replace (j <? i) with false; [reflexivity|]. symmetry. apply Z.ltb_ge. nia. }
        unfold vts. replace (i / nb =? k) with false by (symmetry; apply Z.eqb_neq; lia). ring. }
      destruct (Z.eq_dec (i / nb) k) as [E|E].
      { destruct (existsb (Z.eqb (i / nb)) ms) eqn:EX; [apply proj2 in IN; specialize (IN eq_refl); apply ms_gt in IN; lia|].
        pose proof (HSv (fun l => nmul n1 (x l)) i Hi E) as S. transitivity (nmul n1 (x i)); [|ring]. rewrite <- S. unfold blk.
        rewrite (nsum_ext _ (fun l => nmul (T i l) (Sv k (fun l0 => nmul n1 (x l0)) l))
          (fun l => nadd (if l =? i then vts nb Sv k n1 x i else n0) (if l <? i then nmul (a i l) (vts nb Sv k n1 x l) else n0))).
        2:{ intros l Hl. pose proof (blk_div nb n k l Hl) as El. rewrite HT by (try nia; auto). unfold vts.
            rewrite El, E, !Z.eqb_refl. destruct (Z.ltb_spec l i).
            - replace (l =? i) with false by (symmetry; apply Z.eqb_neq; lia). ring.
            - destruct (Z.eqb_spec l i) as [->|]; ring. }
        rewrite nsum_add, delta_sum by nia. reflexivity. }
      assert (NV : vts nb Sv k n1 x i = x i).
      { unfold vts. replace (i / nb =? k) with false by (symmetry; apply Z.eqb_neq; lia). reflexivity. }
      rewrite NV. destruct (existsb (Z.eqb (i / nb)) ms) eqn:EX.
      - apply proj2 in IN. specialize (IN eq_refl). unfold blk.
        rewrite (nsum_ext _ (fun l => nmul (T i l) _) (fun l => if l <? i then nmul (a i l) (vts nb Sv k n1 x l) else n0)).
        2:{ intros l Hl. pose proof (blk_div nb n k l Hl) as El. rewrite HT by (try nia; auto).
            replace (l <? i) with true by (symmetry; apply Z.ltb_lt; nia). reflexivity. }
        ring.
      - rewrite nsum_0; [ring|]. intros l Hl. pose proof (blk_div nb n k l Hl) as El. destruct (l <? i); [|reflexivity].
        rewrite HZ; [ring|assumption|nia|assumption|lia|]. intros H. apply IN in H. discriminate.
    Qed.
  End Plain.

  Section Transposed.
    Variable oc : N -> N.
    Hypothesis oc_0 : oc n0 = n0.
    Variables (p hi : Z).
    Hypothesis Hp : 0 <= p < nt.
    Hypothesis Hhi : p < hi <= nt.
    Hypothesis HSv : forall b r, 0 <= r < n -> r / nb = p -> blk nb n (fun l => nmul (T r l) (Sv p b l)) p = b r.
    Hypothesis HT : forall r l, 0 <= r < n -> 0 <= l < n -> r / nb = p -> p <= l / nb < hi ->
      T r l = if r <? l then oc (a l r) else if r =? l then n1 else n0.
    Hypothesis HZ : forall r l, 0 <= r < n -> 0 <= l < n -> r / nb = p -> hi <= l / nb -> a l r = n0.

    Lemma trans_step : forall x i, 0 <= i < n ->
      lower_trans nb n a oc p (vts nb Sv p n1 (fold_left (fun x m => vge nb n T p m (nopp n1) n1 x) (zrange (p + 1) hi) x)) i = x i.
    Proof.
      intros x i Hi. remember (fold_left (fun x m => vge nb n T p m (nopp n1) n1 x) (zrange (p + 1) hi) x) as z eqn:Ez.
      assert (Z1 : forall r, z r = if r / nb =? p then nadd (lsum (fun m => nmul (nopp n1) (blk nb n (fun l => nmul (T r l) (x l)) m)) (zrange (p + 1) hi)) (x r) else x r).
      { intros r. rewrite Ez. apply (vge_fold nb n T Hb Hn); [rewrite in_zrange; lia|]. intros m Hm. apply in_zrange in Hm. lia. }
      clear Ez. unfold lower_trans.
      destruct (Z.eqb_spec (i / nb) p) as [E|E].
      2:{ unfold vts. replace (i / nb =? p) with false by (symmetry; apply Z.eqb_neq; assumption). rewrite Z1.
          replace (i / nb =? p) with false by (symmetry; apply Z.eqb_neq; assumption). reflexivity. }
      remember (vts nb Sv p n1 z) as y eqn:Ey.
      assert (Y1 : forall l, l / nb <> p -> y l = x l).
      { intros l Hl. rewrite Ey. unfold vts. replace (l / nb =? p) with false by (symmetry; apply Z.eqb_neq; assumption). rewrite Z1.
        replace (l / nb =? p) with false by (symmetry; apply Z.eqb_neq; assumption). reflexivity. }
      assert (Y2 : blk nb n (fun l => nmul (T i l) (y l)) p = nmul n1 (z i)).
      { rewrite <- (HSv (fun l => nmul n1 (z l)) i Hi E). apply blk_ext; [assumption|assumption| |lia].
        intros l El _ _. rewrite Ey. unfold vts. rewrite El, Z.eqb_refl. reflexivity. }
      clear Ey.
      pose (f := fun l => if i <? l then nmul (oc (a l i)) (y l) else if i =? l then y l else n0).
      assert (S1 : nsum f 0 n = nadd (y i) (nsum (fun l => if i <? l then nmul (oc (a l i)) (y l) else n0) 0 n)).
      { rewrite <- (delta_sum (y i) i 0 n) at 1 by assumption. rewrite <- nsum_add. apply nsum_ext. intros l Hl. unfold f.
        destruct (Z.ltb_spec i l).
        - replace (l =? i) with false by (symmetry; apply Z.eqb_neq; lia). ring.
        - rewrite (Z.eqb_sym i l). destruct (Z.eqb_spec l i) as [->|]; ring. }
      rewrite <- S1. clear S1.
      rewrite <- (blk_all nb n Hb Hn f). fold nt.
      rewrite (nsum_app _ _ 0 p nt), (nsum_cons _ _ p nt), (nsum_app _ _ (p + 1) hi nt) by lia.
      pose proof (div_mod_pos i nb Hb) as [DI MI].
      rewrite (nsum_0 _ _ 0 p).
      2:{ intros m Hm. apply blk_0. intros l El. unfold f. pose proof (div_mod_pos l nb Hb) as [DL ML].
          destruct (Z.ltb_spec i l); [nia|]. destruct (Z.eqb_spec i l); [nia|reflexivity]. }
      rewrite (nsum_0 _ _ hi nt).
      2:{ intros m Hm. unfold blk. apply nsum_0. intros l Hl. pose proof (blk_div nb n m l Hl) as El. unfold f.
          pose proof (div_mod_pos l nb Hb) as [DL ML]. destruct (Z.ltb_spec i l).
          - rewrite HZ; [rewrite oc_0; ring|assumption|nia|assumption|lia].
          - destruct (Z.eqb_spec i l); [nia|reflexivity]. }
      assert (FT : forall m l, p <= m < hi -> l / nb = m -> 0 <= l -> l < n -> f l = nmul (T i l) (y l)).
      { intros m l Hm El H0 H1. unfold f. rewrite HT by (auto; lia). destruct (i <? l); [reflexivity|].
        destruct (i =? l); ring. }
      rewrite (blk_ext nb n Hb Hn p f (fun l => nmul (T i l) (y l))); [|intros l El H0 H1; apply (FT p); auto; lia|lia].
      rewrite Y2, Z1, E, Z.eqb_refl.
      assert (S2 : nsum (blk nb n f) (p + 1) hi = nsum (blk nb n (fun l => nmul (T i l) (x l))) (p + 1) hi).
      { apply nsum_ext. intros m Hm. apply blk_ext; [assumption|assumption| |lia]. intros l El H0 H1.
        rewrite (FT m) by (auto; lia). rewrite Y1 by lia. reflexivity. }
      rewrite S2. change (lsum (fun m => nmul (nopp n1) (blk nb n (fun l => nmul (T i l) (x l)) m)) (zrange (p + 1) hi))
        with (nsum (fun m => nmul (nopp n1) (blk nb n (fun l => nmul (T i l) (x l)) m)) (p + 1) hi).
      rewrite nsum_mul_l. ring.
    Qed.
  End Transposed.
End Step.
