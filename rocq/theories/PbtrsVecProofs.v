(* Solving with a band triangular matrix on one column, tile by tile. *)
From Coq Require Import ZArith List Bool Lia Ring.
From Verif Require Import Base NumModel NumProofs FieldModel DescModel DescProofs OpProofs
  GemmModel GemmProofs MatModel MatProofs TriModel TriVecProofs.
Import ListNotations.
Open Scope Z_scope.

Section BandVec.
  Context {N : numbers}.
  Add Ring num_ring_bvec : (nring N).
  Variables (nb K : Z) (T : Z -> Z -> N).
  Hypotheses (Hb : 0 < nb) (HK : 0 <= K).
  Let nt := ntl nb K.
  Variable Sv : Z -> (Z -> N) -> Z -> N.
  Hypothesis HSv : forall p b r, 0 <= r < K -> r / nb = p ->
    blk nb K (fun l => nmul (T r l) (Sv p b l)) p = b r.

  Lemma vge_list : forall ms p a b x r, NoDup ms -> ~ In p ms -> 0 <= p ->
    fold_left (fun x m => vge nb K T m p a b x) ms x r
    = if existsb (Z.eqb (r / nb)) ms
      then nadd (nmul a (blk nb K (fun l => nmul (T r l) (x l)) p)) (nmul b (x r)) else x r.
  Proof.
    induction ms as [|m ms IH]; intros p a b x r ND NI Hp; cbn [fold_left existsb]; [reflexivity|].
    inversion_clear ND as [|? ? N1 N2]. rewrite IH; [|assumption|intros H; apply NI; right; assumption|assumption].
    assert (NP : p <> m) by (intros ->; apply NI; left; reflexivity).
    assert (BE : blk nb K (fun l => nmul (T r l) (vge nb K T m p a b x l)) p = blk nb K (fun l => nmul (T r l) (x l)) p).
    { apply blk_ext; [assumption|assumption| |assumption]. intros l El _ _. unfold vge. rewrite El.
      replace (p =? m) with false by (symmetry; apply Z.eqb_neq; assumption). reflexivity. }
    rewrite BE. destruct (Z.eqb_spec (r / nb) m) as [E|E]; cbn [orb].
    - replace (existsb (Z.eqb (r / nb)) ms) with false.
      2:{ symmetry. apply not_true_is_false. intros H. apply existsb_exists in H. destruct H as (y & Hy & Ey).
          apply Z.eqb_eq in Ey. apply N1. congruence. }
      unfold vge. rewrite E, Z.eqb_refl. reflexivity.
    - assert (EV : vge nb K T m p a b x r = x r).
      { unfold vge. replace (r / nb =? m) with false by (symmetry; apply Z.eqb_neq; assumption). reflexivity. }
      rewrite EV. reflexivity.
  Qed.

  (* the column is updated as soon as a tile of the solution is known *)
  Section Right.
    Variable ord : Z -> Z.
    Hypothesis ord_in : forall s, 0 <= s < nt -> 0 <= ord s < nt.
    Hypothesis ord_inv : forall s, 0 <= s < nt -> ord (ord s) = s.
    Hypothesis ord_sum : forall f : Z -> N, nsum (fun s => f (ord s)) 0 nt = nsum f 0 nt.
    Variable ms : Z -> list Z.
    Hypothesis ms_nd : forall p, NoDup (ms p).
    Hypothesis ms_gt : forall p m, 0 <= p < nt -> In m (ms p) -> ord p < ord m.
    Hypothesis T_band : forall r l, 0 <= r < K -> 0 <= l < K -> ord (l / nb) < ord (r / nb) ->
      ~ In (r / nb) (ms (l / nb)) -> T r l = n0.

    Definition rstep (x : Z -> N) (t : Z) : Z -> N :=
      fold_left (fun x m => vge nb K T m (ord t) (nopp n1) n1 x) (ms (ord t)) (vts nb Sv (ord t) n1 x).

    Lemma rstep_val : forall x t r, 0 <= t < nt -> 0 <= r < K ->
      rstep x t r = if ord (r / nb) <? t then x r
        else if ord (r / nb) =? t then Sv (ord t) (fun l => nmul n1 (x l)) r
        else nadd (nmul (nopp n1) (blk nb K (fun l => nmul (T r l) (Sv (ord t) (fun l => nmul n1 (x l)) l)) (ord t)))
                  (nmul n1 (x r)).
    Proof.
      intros x t r Ht Hr. pose proof (tile_in nb K Hb HK r Hr) as Hp. fold nt in Hp. pose proof (ord_in t Ht) as Ot.
      unfold rstep. rewrite vge_list; [|apply ms_nd| |lia].
      2:{ intros H. apply ms_gt in H; [lia|assumption]. }
      assert (EQ : r / nb = ord t <-> ord (r / nb) = t).
      { split; intros E; [rewrite E; apply ord_inv; assumption|]. rewrite <- E. symmetry. apply ord_inv. assumption. }
      assert (IN : existsb (Z.eqb (r / nb)) (ms (ord t)) = true -> t < ord (r / nb)).
      { intros H. apply existsb_exists in H. destruct H as (y & Hy & Ey). apply Z.eqb_eq in Ey. subst y.
        apply ms_gt in Hy; [|assumption]. rewrite ord_inv in Hy by assumption. assumption. }
      assert (BE : blk nb K (fun l => nmul (T r l) (vts nb Sv (ord t) n1 x l)) (ord t)
                   = blk nb K (fun l => nmul (T r l) (Sv (ord t) (fun l => nmul n1 (x l)) l)) (ord t)).
      { apply blk_ext; [assumption|assumption| |lia]. intros l El _ _. unfold vts.
        rewrite El, Z.eqb_refl. reflexivity. }
      rewrite BE. unfold vts. destruct (Z.ltb_spec (ord (r / nb)) t) as [L|L].
      - replace (r / nb =? ord t) with false.
        2:{ symmetry. apply Z.eqb_neq. intros E. apply EQ in E. lia. }
        destruct (existsb (Z.eqb (r / nb)) (ms (ord t))) eqn:EX; [specialize (IN eq_refl); lia|reflexivity].
      - destruct (Z.eqb_spec (ord (r / nb)) t) as [E|E].
        + replace (r / nb =? ord t) with true by (symmetry; apply Z.eqb_eq, EQ; assumption).
          destruct (existsb (Z.eqb (r / nb)) (ms (ord t))) eqn:EX; [specialize (IN eq_refl); lia|reflexivity].
        + replace (r / nb =? ord t) with false.
          2:{ symmetry. apply Z.eqb_neq. intros E'. apply EQ in E'. contradiction. }
          destruct (existsb (Z.eqb (r / nb)) (ms (ord t))) eqn:EX; [reflexivity|].
          assert (B0 : blk nb K (fun l => nmul (T r l) (Sv (ord t) (fun l => nmul n1 (x l)) l)) (ord t) = n0).
          { unfold blk. apply nsum_0. intros l Hl. pose proof (blk_div nb K _ _ Hl) as El.
            assert (L0 : 0 <= l) by nia.
            rewrite T_band; [ring|assumption|lia|rewrite El, ord_inv by assumption; lia|].
            rewrite El. intros HI. apply not_true_iff_false in EX. apply EX. apply existsb_exists.
            exists (r / nb). split; [assumption|apply Z.eqb_refl]. }
          rewrite B0. ring.
    Qed.

    Lemma rsolve : forall b r, (forall r l, 0 <= r < K -> 0 <= l < K -> ord (r / nb) < ord (l / nb) -> T r l = n0) ->
      0 <= r < K -> nsum (fun l => nmul (T r l) (fold_left rstep (zrange 0 nt) b l)) 0 K = b r.
    Proof.
      intros b r HT Hr.
      pose proof (vsolve_gen nb K T Hb HK Sv HSv ord (fun _ => n1) (fun _ => nopp n1) (fun _ => n1) ord_in ord_inv ord_sum) as V.
      cbv beta in V. rewrite V; auto.
      - ring.
      - intros. split; ring.
      - intros. apply rstep_val; assumption.
    Qed.
  End Right.

  (* a tile of the column is updated when its turn comes, from the last tile upwards *)
  Section Left.
    Variable hi : Z -> Z.
    Hypothesis hi_in : forall p, 0 <= p < nt -> p < hi p <= nt.
    Hypothesis T_up : forall r l, 0 <= r < K -> 0 <= l < K -> l / nb < r / nb -> T r l = n0.
    Hypothesis T_band : forall r l, 0 <= r < K -> 0 <= l < K -> hi (r / nb) <= l / nb -> T r l = n0.

    Definition lstep (x : Z -> N) (t : Z) : Z -> N :=
      vts nb Sv (nt - 1 - t) n1
        (fold_left (fun x m => vge nb K T (nt - 1 - t) m (nopp n1) n1 x) (zrange (nt - 1 - t + 1) (hi (nt - 1 - t))) x).

    Lemma lstep_other : forall x t r, r / nb <> nt - 1 - t -> 0 <= t < nt -> lstep x t r = x r.
    Proof.
      intros x t r Hne Ht. unfold lstep, vts. replace (r / nb =? nt - 1 - t) with false by (symmetry; apply Z.eqb_neq; assumption).
      rewrite (vge_fold nb K T Hb HK); [|rewrite in_zrange; lia|intros k Hk; apply in_zrange in Hk; lia].
      replace (r / nb =? nt - 1 - t) with false by (symmetry; apply Z.eqb_neq; assumption). reflexivity.
    Qed.

    Lemma lstep_own : forall x t r, 0 <= t < nt -> 0 <= r < K -> r / nb = nt - 1 - t ->
      blk nb K (fun l => nmul (T r l) (lstep x t l)) (nt - 1 - t)
      = nsub (x r) (nsum (blk nb K (fun l => nmul (T r l) (x l))) (nt - t) nt).
    Proof.
      intros x t r Ht Hr E. destruct (hi_in (nt - 1 - t) ltac:(lia)) as [H1 H2].
      rewrite (blk_ext nb K Hb HK _ _ (fun l => nmul (T r l) (Sv (nt - 1 - t) (fun l => nmul n1
        (fold_left (fun x m => vge nb K T (nt - 1 - t) m (nopp n1) n1 x) (zrange (nt - 1 - t + 1) (hi (nt - 1 - t))) x l)) l))).
      2:{ intros l El _ _. unfold lstep, vts. rewrite El, Z.eqb_refl. reflexivity. }
      2:{ lia. }
      rewrite HSv by assumption.
      rewrite (vge_fold nb K T Hb HK); [|rewrite in_zrange; lia|intros k Hk; apply in_zrange in Hk; lia].
      rewrite E, Z.eqb_refl, lsum_zrange.
      rewrite (nsum_app N _ (nt - t) (hi (nt - 1 - t)) nt) by lia.
      replace (nsum (blk nb K (fun l => nmul (T r l) (x l))) (hi (nt - 1 - t)) nt) with (n0 : N).
      2:{ symmetry. apply nsum_0. intros k Hk. unfold blk. apply nsum_0. intros l Hl.
          pose proof (blk_div nb K _ _ Hl) as El. assert (0 <= l) by nia. rewrite T_band; [ring|assumption|lia|].
          rewrite E, El. lia. }
      replace (nt - 1 - t + 1) with (nt - t) by lia.
      rewrite nsum_mul_l. ring.
    Qed.

    Lemma lsolve : forall b r, 0 <= r < K ->
      nsum (fun l => nmul (T r l) (fold_left lstep (zrange 0 nt) b l)) 0 K = b r.
    Proof.
      intros b r Hr. assert (NT : 0 <= nt) by (apply Z.div_pos; lia).
      assert (INV : forall t, t <= nt -> let x := fold_left lstep (zrange 0 t) b in
        (forall r, 0 <= r < K -> nt - t <= r / nb ->
           nsum (blk nb K (fun l => nmul (T r l) (x l))) (r / nb) nt = b r) /\
        (forall r, 0 <= r < K -> r / nb < nt - t -> x r = b r)).
      { intros t. pattern t. apply (zrange_ind_hi _ 0); clear t.
        - intros t Ht _. rewrite zrange_nil by lia. cbn [fold_left]. split; [|reflexivity].
          intros r' Hr' L. pose proof (tile_in nb K Hb HK r' Hr') as Hp. fold nt in Hp. lia.
        - intros t Ht IH Hn. rewrite zrange_snoc by lia. rewrite fold_left_app. cbn [fold_left].
          destruct IH as [IA IB]; [lia|]. remember (fold_left lstep (zrange 0 t) b) as x eqn:Ex. clear Ex.
          assert (OT : forall r k, k <> nt - 1 - t -> 0 <= k ->
            blk nb K (fun l => nmul (T r l) (lstep x t l)) k = blk nb K (fun l => nmul (T r l) (x l)) k).
          { intros r' k Hk H0. apply blk_ext; [assumption|assumption| |assumption]. intros l El _ _. rewrite lstep_other; [reflexivity|lia|lia]. }
          split.
          + intros r' Hr' L. pose proof (tile_in nb K Hb HK r' Hr') as Hp. fold nt in Hp.
            destruct (Z.eq_dec (r' / nb) (nt - 1 - t)) as [E|E].
            * rewrite nsum_cons by lia. rewrite E, lstep_own by (try assumption; lia).
              replace (nt - 1 - t + 1) with (nt - t) by lia.
              rewrite (nsum_ext _ (fun k => blk nb K (fun l => nmul (T r' l) (lstep x t l)) k)
                         (blk nb K (fun l => nmul (T r' l) (x l)))) by (intros k Hk; apply OT; lia).
              rewrite IB by lia. ring.
            * rewrite (nsum_ext _ (fun k => blk nb K (fun l => nmul (T r' l) (lstep x t l)) k)
                         (blk nb K (fun l => nmul (T r' l) (x l)))) by (intros k Hk; apply OT; lia).
              apply IA; [assumption|lia].
          + intros r' Hr' L. rewrite lstep_other by lia. apply IB; [assumption|lia]. }
      destruct (INV nt (Z.le_refl nt)) as [IA _]. cbv zeta in IA.
      remember (fold_left lstep (zrange 0 nt) b) as x eqn:Ex. clear Ex INV.
      pose proof (tile_in nb K Hb HK r Hr) as Hp. fold nt in Hp.
      rewrite <- (IA r Hr) by lia. rewrite <- (blk_all nb K Hb HK). fold nt.
      rewrite (nsum_app N _ 0 (r / nb) nt) by lia.
      replace (nsum (blk nb K (fun l => nmul (T r l) (x l))) 0 (r / nb)) with (n0 : N); [ring|].
      symmetry. apply nsum_0. intros k Hk. unfold blk. apply nsum_0. intros l Hl.
      pose proof (blk_div nb K _ _ Hl) as El. assert (0 <= l) by nia. rewrite T_up; [ring|assumption|lia|lia].
    Qed.
  End Left.
End BandVec.
