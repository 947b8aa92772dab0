(* The kernels of the norms of symmetric, Hermitian and triangular matrices. *)
From Coq Require Import ZArith List Bool Lia Ring.
From Verif Require Import Base NumModel NumProofs FieldModel TaskModel TaskSpec DescModel DescSpec
  MatModel SimProofs NormModel NormTriModel NormSpec NormProofs NormInstances.
Import ListNotations.
Open Scope Z_scope.

Section Tri.
  Context {N : normed}.
  Add Ring num_ring_tri : (nring N).

  Lemma ssq_ssq : forall (s : N * N) (t x : N), isabs x -> ssq_ok s t -> ssq_ok (ssq s x) (nadd t (nmul x x)).
  Proof.
    intros [a b] t x Hx (A1 & A2 & A3). cbn [fst snd] in *. unfold ssq. cbn [fst snd].
    destruct (neqb x n0) eqn:E0.
    - apply neqb_eq in E0. subst x. split; [assumption|]. split; [assumption|]. cbn [fst snd]. rewrite A3. ring.
    - assert (NX : x <> n0). { intros E. apply neqb_eq in E. congruence. }
      destruct (nltb a x) eqn:E.
      + pose proof (finv_l N x NX) as L. assert (AI : isabs (finv x)) by (apply isabs_inv; assumption).
        split; cbn [fst snd]; [assumption|]. split; [auto 10 using isabs_add, isabs_mul, isabs_1|].
        rewrite <- A3.
        transitivity (nadd (nmul x x)
          (nmul (nmul (nmul (finv x) x) (nmul (finv x) x)) (nmul (nmul a a) b))); [ring|]. rewrite L. ring.
      + assert (NZ : a <> n0).
        { intros Ea. subst a. apply NX. apply nle_0_eq; assumption. }
        pose proof (finv_l N a NZ) as L. assert (AI : isabs (finv a)) by (apply isabs_inv; assumption).
        split; cbn [fst snd]; [assumption|]. split; [auto 10 using isabs_add, isabs_mul|].
        rewrite <- A3.
        transitivity (nadd (nmul (nmul a a) b)
          (nmul (nmul (nmul (finv a) a) (nmul (finv a) a)) (nmul x x))); [ring|]. rewrite L. ring.
  Qed.

  Lemma ssq_folds : forall (I : Type) (L : list I) (x : I -> N) s t, (forall i, In i L -> isabs (x i)) -> ssq_ok s t ->
    ssq_ok (fold_left (fun s i => ssq s (x i)) L s) (nadd t (fold_right (fun i u => nadd (nmul (x i) (x i)) u) n0 L)).
  Proof.
    intros I L x. induction L as [|i L IH]; intros s t HX HS; cbn [fold_left fold_right].
    - replace (nadd t n0) with t by ring. assumption.
    - replace (nadd t (nadd (nmul (x i) (x i)) (fold_right (fun i u => nadd (nmul (x i) (x i)) u) n0 L)))
        with (nadd (nadd t (nmul (x i) (x i))) (fold_right (fun i u => nadd (nmul (x i) (x i)) u) n0 L)) by ring.
      apply IH; [intros; apply HX; right; assumption|]. apply ssq_ssq; [apply HX; left; reflexivity|assumption].
  Qed.

  (* the zlassq of the examples meets the contract *)
  Lemma lassq_ref_ok : lassq_ok (@lassq_ref N).
  Proof.
    intros xs s H1 H2. unfold lassq_ref.
    pose proof (ssq_folds N xs nabs s (nmul (nmul (fst s) (fst s)) (snd s)) (fun _ _ => isabs_abs _)) as F.
    destruct F as (A & B & C); [split; [|split]; auto|]. auto.
  Qed.

  Lemma ssq_zrange : forall (x : Z -> N) a b s t, (forall i, a <= i < b -> isabs (x i)) -> ssq_ok s t ->
    ssq_ok (fold_left (fun s i => ssq s (x i)) (zrange a b) s) (nadd t (nsum (fun i => nmul (x i) (x i)) a b)).
  Proof.
    intros x a b s t HX HS. apply (ssq_folds Z (zrange a b) x); [|assumption].
    intros i Hi. apply HX, in_zrange. assumption.
  Qed.

  Lemma twice_ok : forall (s : N * N) (t : N), ssq_ok s t -> ssq_ok (twice s) (nadd t t).
  Proof.
    intros s t (A & B & C). unfold twice. split; [assumption|]. split; cbn [fst snd].
    - auto using isabs_mul, isabs_add, isabs_1.
    - rewrite <- C. ring.
  Qed.

  (* columns one after the other *)
  Lemma ssq_cols : forall (step : N * N -> Z -> N * N) (c : Z -> N) a b s t,
    (forall j s t, a <= j < b -> ssq_ok s t -> ssq_ok (step s j) (nadd t (c j))) -> ssq_ok s t ->
    ssq_ok (fold_left step (zrange a b) s) (nadd t (nsum c a b)).
  Proof.
    intros step c a b s t. pattern b. apply (zrange_ind_hi _ a); clear b.
    - intros b H _ HS. rewrite zrange_nil, nsum_nil by lia. cbn. replace (nadd t n0) with t by ring. assumption.
    - intros b H IH HF HS. rewrite zrange_snoc, fold_left_app, nsum_snoc by lia. cbn [fold_left].
      replace (nadd t (nadd (nsum c a b) (c b))) with (nadd (nadd t (nsum c a b)) (c b)) by ring.
      apply HF; [lia|]. apply IH; [|assumption]. intros j s0 t0 Hj. apply HF. lia.
  Qed.

  (* ---------------------------------------------------------------- *)
  (* the magnitudes of the full matrix *)

  Definition stored (uplo i j : Z) : bool := if uplo =? PlasmaUpper then i <=? j else j <=? i.
  (* symmetric or Hermitian *)
  Definition gs (dg : N -> N) (uplo : Z) (f : Z -> Z -> N) (i j : Z) : N :=
    if i =? j then dg (f i j) else if stored uplo i j then nabs (f i j) else nabs (f j i).
  (* triangular *)
  Definition gt (uplo diag : Z) (f : Z -> Z -> N) (i j : Z) : N :=
    if i =? j then (if diag =? PlasmaUnit then n1 else nabs (f i j))
    else if stored uplo i j then nabs (f i j) else n0.

  Lemma gs_sym : forall dg uplo (f : Z -> Z -> N) i j, gs dg uplo f i j = gs dg uplo f j i.
  Proof.
    intros dg uplo f i j. unfold gs. destruct (Z.eqb_spec i j) as [->|E]; [rewrite Z.eqb_refl; reflexivity|].
    destruct (Z.eqb_spec j i) as [|_]; [lia|]. unfold stored. destruct (uplo =? PlasmaUpper);
    destruct (Z.leb_spec i j), (Z.leb_spec j i); try lia; reflexivity.
  Qed.
  Lemma gs_abs : forall dg uplo (f : Z -> Z -> N) i j, (forall z, isabs (dg z)) -> isabs (gs dg uplo f i j).
  Proof.
    intros dg uplo f i j HD. unfold gs. destruct (i =? j); [apply HD|]. destruct (stored uplo i j); apply isabs_abs.
  Qed.
  Lemma gt_abs : forall uplo diag (f : Z -> Z -> N) i j, isabs (gt uplo diag f i j).
  Proof.
    intros uplo diag f i j. unfold gt. destruct (i =? j); [destruct (diag =? PlasmaUnit)|destruct (stored uplo i j)];
      auto using isabs_abs, isabs_1, isabs_0.
  Qed.

  (* a maximum over part of the matrix that misses only copies and zeros *)
  Lemma largest_cover : forall (I : Type) (P Q : I -> Prop) (f : I -> N) v, (forall x, Q x -> isabs (f x)) ->
    (forall x, P x -> Q x) -> (exists x, P x) ->
    (forall x, Q x -> f x = n0 \/ exists y, P y /\ f y = f x) -> largest P f v -> largest Q f v.
  Proof.
    intros I P Q f v HA HPQ (x0 & Hx0) HC [L1 L2].
    destruct L2 as [(y & Hy & ->)|[Hno _]]; [|exfalso; exact (Hno x0 Hx0)]. split.
    - intros x Hx. destruct (HC x Hx) as [E|(z & Hz & E)].
      + rewrite E. apply (nle_0 (f y)). auto.
      + rewrite <- E. apply L1. assumption.
    - left. exists y. auto.
  Qed.

  Lemma fold_nested_dep : forall (A : Type) (h : A -> Z * Z -> A) (L1 : Z -> list Z) (L2 : list Z) v,
    fold_left (fun v j => fold_left (fun v i => h v (i, j)) (L1 j) v) L2 v
    = fold_left h (flat_map (fun j => map (fun i => (i, j)) (L1 j)) L2) v.
  Proof.
    intros A h L1 L2. induction L2 as [|j L2 IH]; intros v; cbn [fold_left flat_map]; [reflexivity|].
    rewrite fold_left_app, IH. f_equal. generalize (L1 j). intros l. revert v.
    induction l as [|i l IHl]; intros v; cbn [fold_left map]; [reflexivity|]. apply IHl.
  Qed.

  Lemma fold_tri_largest : forall (g : Z -> Z -> N) (L1 : Z -> list Z) n v0 (P : Z * Z -> Prop),
    (forall i j, isabs (g i j)) -> isabs v0 ->
    (forall i j, P (i, j) <-> 0 <= j < n /\ In i (L1 j)) ->
    let v := fold_left (fun v j => fold_left (fun v i => nmax v (g i j)) (L1 j) v) (zrange 0 n) v0 in
    isabs v /\ nle v0 v /\ (forall p, P p -> nle (g (fst p) (snd p)) v) /\
    (v = v0 \/ exists p, P p /\ v = g (fst p) (snd p)).
  Proof.
    intros g L1 n v0 P HG H0 HP v.
    assert (E : v = fold_left (fun v p => nmax v (g (fst p) (snd p))) (flat_map (fun j => map (fun i => (i, j)) (L1 j)) (zrange 0 n)) v0).
    { unfold v. rewrite <- (fold_nested_dep N (fun v p => nmax v (g (fst p) (snd p)))). reflexivity. }
    assert (HI : forall p, In p (flat_map (fun j => map (fun i => (i, j)) (L1 j)) (zrange 0 n)) <-> P p).
    { intros [i j]. rewrite in_flat_map, HP. split.
      - intros (j' & Hj & Hi). apply in_map_iff in Hi. destruct Hi as (i' & Ei & Hi). injection Ei as -> ->.
        apply in_zrange in Hj. auto.
      - intros (Hj & Hi). exists j. split; [apply in_zrange; assumption|]. apply in_map_iff. exists i. auto. }
    destruct (fold_max (Z * Z) (fun p => g (fst p) (snd p))
      (flat_map (fun j => map (fun i => (i, j)) (L1 j)) (zrange 0 n)) v0 H0) as (B1 & B2 & B3 & B4); [auto|].
    rewrite E. split; [assumption|]. split; [assumption|]. split.
    - intros p Hp. apply B3, HI. assumption.
    - destruct B4 as [B4|(p & Hp & B4)]; [left; assumption|right; exists p; split; [apply HI; assumption|assumption]].
  Qed.

  Lemma tri_list_in : forall uplo i j n, 0 <= j < n ->
    In i (if uplo =? PlasmaUpper then zrange 0 (j + 1) else zrange j n) <-> 0 <= i < n /\ stored uplo i j = true.
  Proof.
    intros uplo i j n Hj. unfold stored. destruct (uplo =? PlasmaUpper); rewrite in_zrange, Z.leb_le; lia.
  Qed.

  Lemma lansy_max_largest : forall dg uplo n (f : Z -> Z -> N), (forall z, isabs (dg z)) -> 0 < n ->
    largest (fun p => in_matrix n n (fst p) (snd p)) (fun p : Z * Z => gs dg uplo f (fst p) (snd p)) (lansy_max dg uplo n f).
  Proof.
    intros dg uplo n f HD Hn.
    pose (P := fun p : Z * Z => in_matrix n n (fst p) (snd p) /\ stored uplo (fst p) (snd p) = true).
    apply (largest_cover _ P).
    - intros; apply gs_abs, HD.
    - intros p [Hp _]. exact Hp.
    - exists (0, 0). split; [split; cbn; lia|]. unfold stored. cbn. destruct (uplo =? PlasmaUpper); reflexivity.
    - intros [i j] [Hi Hj]. cbn [fst snd] in *. right.
      destruct (stored uplo i j) eqn:E; [exists (i, j); split; [split; [split; assumption|exact E]|reflexivity]|].
      exists (j, i). split; [|apply gs_sym]. split; [split; assumption|]. cbn [fst snd].
      revert E. unfold stored. destruct (uplo =? PlasmaUpper); rewrite Z.leb_gt, Z.leb_le; lia.
    - unfold lansy_max.
      destruct (fold_tri_largest (gs dg uplo f) (fun j => if uplo =? PlasmaUpper then zrange 0 (j + 1) else zrange j n) n n0 P)
        as (B1 & B2 & B3 & B4).
      + intros; apply gs_abs, HD.
      + apply isabs_0.
      + intros i j. unfold P. cbn [fst snd]. split.
        * intros [[Hi Hj] HS]. split; [assumption|]. apply tri_list_in; auto.
        * intros [Hj HI]. apply tri_list_in in HI; [|assumption]. destruct HI. split; [split|]; assumption.
      + assert (EQ : fold_left (fun v j => fold_left (fun v i => nmax v (if i =? j then dg (f i j) else nabs (f i j)))
            (if uplo =? PlasmaUpper then zrange 0 (j + 1) else zrange j n) v) (zrange 0 n) n0
          = fold_left (fun v j => fold_left (fun v i => nmax v (gs dg uplo f i j))
            (if uplo =? PlasmaUpper then zrange 0 (j + 1) else zrange j n) v) (zrange 0 n) n0).
        { apply fold_left_ext_in. intros j v Hj. apply in_zrange in Hj. apply fold_left_ext_in. intros i w Hi.
          apply tri_list_in in Hi; [|assumption]. destruct Hi as [_ Hi]. unfold gs. rewrite Hi. reflexivity. }
        rewrite EQ. clear EQ. split; [exact B3|]. left. destruct B4 as [B4|B4]; [|exact B4].
        exists (0, 0). assert (P (0, 0)) as P0.
        { split; [split; cbn; lia|]. unfold stored. cbn. destruct (uplo =? PlasmaUpper); reflexivity. }
        split; [assumption|]. rewrite B4. symmetry. apply nle_0_eq; [apply gs_abs, HD|]. rewrite <- B4. apply (B3 _ P0).
  Qed.

  (* sums of a triangle *)
  Lemma nsum_split3 : forall (h : Z -> N) k n, 0 <= k < n ->
    nsum h 0 n = nadd (nsum h 0 k) (nadd (h k) (nsum h (k + 1) n)).
  Proof. intros h k n Hk. rewrite (nsum_app N h 0 k n) by lia. rewrite (nsum_cons N h k n) by lia. reflexivity. Qed.

  Lemma vadd_fold : forall (x : Z -> N) j a b v k,
    fold_left (fun v i => vadd (vadd v i (x i)) j (x i)) (zrange a b) v k
    = nadd (nadd (v k) (if (a <=? k) && (k <? b) then x k else n0)) (if k =? j then nsum x a b else n0).
  Proof.
    intros x j a b v k. pattern b. apply (zrange_ind_hi _ a); clear b.
    - intros b H. rewrite zrange_nil, nsum_nil by lia. cbn [fold_left].
      replace ((a <=? k) && (k <? b)) with false by lia. destruct (k =? j); ring.
    - intros b H IH. rewrite zrange_snoc, fold_left_app, nsum_snoc by lia. cbn [fold_left].
      unfold vadd at 1 2. rewrite IH.
      destruct (Z.eqb_spec k j) as [Ej|Ej], (Z.eqb_spec k b) as [Eb|Eb].
      + replace ((a <=? k) && (k <? b)) with false by lia. replace ((a <=? k) && (k <? b + 1)) with true by lia.
        subst k. rewrite Eb in *. ring.
      + replace ((a <=? k) && (k <? b + 1)) with ((a <=? k) && (k <? b)) by lia. ring.
      + replace ((a <=? k) && (k <? b)) with false by lia. replace ((a <=? k) && (k <? b + 1)) with true by lia.
        rewrite Eb. ring.
      + replace ((a <=? k) && (k <? b + 1)) with ((a <=? k) && (k <? b)) by lia. ring.
  Qed.

  Lemma vadd_fold_upper : forall dg (f : Z -> Z -> N) n k, 0 <= k ->
    fold_left (fun v j =>
        vadd (fold_left (fun v i => vadd (vadd v i (nabs (f i j))) j (nabs (f i j))) (zrange 0 j) v)
             j (dg (f j j))) (zrange 0 n) (fun _ => n0) k
    = nsum (fun j => if k <? j then nabs (f k j) else if k =? j then nadd (nsum (fun i => nabs (f i j)) 0 j) (dg (f j j)) else n0) 0 n.
  Proof.
    intros dg f n k Hk. pattern n. apply (zrange_ind_hi _ 0); clear n.
    - intros n H. rewrite (zrange_nil 0 n), (nsum_nil N _ 0 n) by lia. reflexivity.
    - intros n H IH. rewrite (zrange_snoc 0 n), fold_left_app, (nsum_snoc N _ 0 n) by lia. cbn [fold_left].
      unfold vadd at 1. rewrite (vadd_fold (fun i => nabs (f i n)) n 0 n). rewrite IH.
      destruct (Z.eqb_spec k n) as [E|E].
      + subst k. replace ((0 <=? n) && (n <? n)) with false by lia. replace (n <? n) with false by lia. ring.
      + replace ((0 <=? k) && (k <? n)) with (k <? n) by lia. destruct (k <? n); ring.
  Qed.

  Lemma vadd_fold_lower : forall dg (f : Z -> Z -> N) n t k, 0 <= k < n -> t <= n ->
    fold_left (fun v j =>
        fold_left (fun v i => vadd (vadd v i (nabs (f i j))) j (nabs (f i j))) (zrange (j + 1) n)
          (vadd v j (dg (f j j)))) (zrange 0 t) (fun _ => n0) k
    = nsum (fun j => if j <? k then nabs (f k j) else if k =? j then nadd (dg (f j j)) (nsum (fun i => nabs (f i j)) (j + 1) n) else n0) 0 t.
  Proof.
    intros dg f n t k Hk. pattern t. apply (zrange_ind_hi _ 0); clear t.
    - intros t H _. rewrite (zrange_nil 0 t), (nsum_nil N _ 0 t) by lia. reflexivity.
    - intros t H IH Ht. rewrite (zrange_snoc 0 t), fold_left_app, (nsum_snoc N _ 0 t) by lia. cbn [fold_left].
      rewrite (vadd_fold (fun i => nabs (f i t)) t (t + 1) n). unfold vadd at 1. rewrite IH by lia.
      destruct (Z.eqb_spec k t) as [E|E].
      + subst k. replace ((t + 1 <=? t) && (t <? n)) with false by lia. replace (t <? t) with false by lia. ring.
      + replace ((t + 1 <=? k) && (k <? n)) with (t <? k) by lia. destruct (t <? k); ring.
  Qed.

  Lemma lansy_aux_sum : forall dg uplo n (f : Z -> Z -> N) k, 0 <= k < n ->
    lansy_aux dg uplo n f k = nsum (fun i => gs dg uplo f i k) 0 n.
  Proof.
    intros dg uplo n f k Hk. unfold lansy_aux.
    rewrite (nsum_split3 (fun i => gs dg uplo f i k) k n Hk).
    assert (ED : gs dg uplo f k k = dg (f k k)) by (unfold gs; rewrite Z.eqb_refl; reflexivity). rewrite ED.
    destruct (Z.eqb_spec uplo PlasmaUpper) as [EU|EU].
    - rewrite vadd_fold_upper by lia. rewrite (nsum_split3 _ k n Hk).
      rewrite Z.ltb_irrefl, Z.eqb_refl.
      rewrite (nsum_0 N (fun j => if k <? j then _ else _) 0 k).
      2: { intros i Hi. replace (k <? i) with false by lia. replace (k =? i) with false by lia. reflexivity. }
      rewrite (nsum_ext N (fun j => if k <? j then _ else _) (fun j => nabs (f k j)) (k + 1) n).
      2: { intros i Hi. replace (k <? i) with true by lia. reflexivity. }
      rewrite (nsum_ext N (fun i => gs dg uplo f i k) (fun i => nabs (f i k)) 0 k).
      2: { intros i Hi. unfold gs, stored. replace (i =? k) with false by lia. rewrite EU. cbn [Z.eqb PlasmaUpper Pos.eqb].
           replace (i <=? k) with true by lia. reflexivity. }
      rewrite (nsum_ext N (fun i => gs dg uplo f i k) (fun i => nabs (f k i)) (k + 1) n).
      2: { intros i Hi. unfold gs, stored. replace (i =? k) with false by lia. rewrite EU. cbn [Z.eqb PlasmaUpper Pos.eqb].
           replace (i <=? k) with false by lia. reflexivity. }
      ring.
    - rewrite vadd_fold_lower by lia. rewrite (nsum_split3 _ k n Hk).
      rewrite Z.ltb_irrefl, Z.eqb_refl.
      rewrite (nsum_0 N (fun j => if j <? k then _ else _) (k + 1) n).
      2: { intros i Hi. replace (i <? k) with false by lia. replace (k =? i) with false by lia. reflexivity. }
      rewrite (nsum_ext N (fun j => if j <? k then _ else _) (fun j => nabs (f k j)) 0 k).
      2: { intros i Hi. replace (i <? k) with true by lia. reflexivity. }
      rewrite (nsum_ext N (fun i => gs dg uplo f i k) (fun i => nabs (f k i)) 0 k).
      2: { intros i Hi. unfold gs, stored. replace (i =? k) with false by lia. rewrite (proj2 (Z.eqb_neq _ _) EU).
           replace (k <=? i) with false by lia. reflexivity. }
      rewrite (nsum_ext N (fun i => gs dg uplo f i k) (fun i => nabs (f i k)) (k + 1) n).
      2: { intros i Hi. unfold gs, stored. replace (i =? k) with false by lia. rewrite (proj2 (Z.eqb_neq _ _) EU).
           replace (k <=? i) with true by lia. reflexivity. }
      ring.
  Qed.
End Tri.
