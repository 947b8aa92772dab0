(* Maxima, sums and scaled sums of squares. *)
From Coq Require Import ZArith List Bool Lia Ring.
From Verif Require Import Base NumModel NumProofs FieldModel TaskModel TaskSpec DescModel DescSpec
  MatModel SimProofs NormModel NormSpec.
Import ListNotations.
Open Scope Z_scope.

Section Max.
  Context {N : normed}.
  Add Ring num_ring_max : (nring N).

  Definition isabs (x : N) : Prop := nabs x = x.
  Definition nle (x y : N) : Prop := nltb y x = false.

  Lemma isabs_abs : forall x : N, isabs (nabs x).
  Proof. intros x. apply nabs_abs. Qed.
  Lemma isabs_0 : isabs n0.
  Proof. apply nabs_0. Qed.
  Lemma isabs_1 : isabs n1.
  Proof. apply nabs_1. Qed.
  Lemma isabs_add : forall x y, isabs x -> isabs y -> isabs (nadd x y).
  Proof. intros x y Hx Hy. unfold isabs in *. rewrite <- Hx, <- Hy at 1. rewrite nabs_add. congruence. Qed.
  Lemma isabs_mul : forall x y, isabs x -> isabs y -> isabs (nmul x y).
  Proof. intros x y Hx Hy. unfold isabs in *. rewrite nabs_mul. congruence. Qed.
  Lemma isabs_inv : forall x, isabs x -> x <> n0 -> isabs (finv x).
  Proof.
    intros x Hx NZ. unfold isabs in *. pose proof (finv_l N x NZ) as E.
    assert (E2 : nmul (nabs (finv x)) x = n1).
    { rewrite <- Hx at 2. rewrite <- nabs_mul, E. apply nabs_1. }
    transitivity (nmul (nabs (finv x)) (nmul (finv x) x)); [rewrite E; ring|].
    transitivity (nmul (finv x) (nmul (nabs (finv x)) x)); [ring|]. rewrite E2. ring.
  Qed.
  Lemma isabs_sum : forall (f : Z -> N) a b, (forall i, a <= i < b -> isabs (f i)) -> isabs (nsum f a b).
  Proof.
    intros f a b. pattern b. apply (zrange_ind_hi _ a); clear b.
    - intros b H _. rewrite nsum_nil by lia. apply isabs_0.
    - intros b H IH HF. rewrite nsum_snoc by lia. apply isabs_add; [apply IH; intros; apply HF; lia|apply HF; lia].
  Qed.

  Lemma nle_refl : forall x, isabs x -> nle x x.
  Proof.
    intros x Hx. unfold nle. destruct (nltb x x) eqn:E; [|reflexivity].
    unfold isabs in Hx. rewrite <- Hx in E. rewrite <- (nltb_asym N x x E). symmetry. assumption.
  Qed.
  Lemma nle_trans : forall x y z, isabs x -> isabs y -> isabs z -> nle x y -> nle y z -> nle x z.
  Proof.
    intros x y z Hx Hy Hz H1 H2. unfold nle, isabs in *.
    pose proof (nltb_trans N x y z) as T. rewrite Hx, Hy, Hz in T. auto.
  Qed.
  Lemma nle_lt : forall x y, isabs x -> isabs y -> nltb x y = true -> nle x y.
  Proof. intros x y Hx Hy H. unfold nle, isabs in *. pose proof (nltb_asym N x y) as T. rewrite Hx, Hy in T. auto. Qed.
  Lemma nle_0 : forall x, isabs x -> nle n0 x.
  Proof. intros x Hx. unfold nle, isabs in *. rewrite <- Hx. apply nltb_0. Qed.
  Lemma nle_0_eq : forall x, isabs x -> nle x n0 -> x = n0.
  Proof.
    intros x Hx H. unfold nle, isabs in *. destruct (neqb x n0) eqn:E; [apply neqb_eq; assumption|].
    rewrite <- Hx in H. rewrite nltb_pos in H; [discriminate|]. intros ->.
    apply not_true_iff_false in E. apply E. apply neqb_eq. reflexivity.
  Qed.

  Lemma fold_max : forall (I : Type) (f : I -> N) L v0, isabs v0 -> (forall x, In x L -> isabs (f x)) ->
    let v := fold_left (fun v x => nmax v (f x)) L v0 in
    isabs v /\ nle v0 v /\ (forall x, In x L -> nle (f x) v) /\ (v = v0 \/ exists x, In x L /\ v = f x).
  Proof.
    intros I f L. induction L as [|x L IH]; intros v0 H0 HF; cbn [fold_left].
    - split; [assumption|]. split; [apply nle_refl; assumption|]. split; [intros x []|left; reflexivity].
    - assert (Hx : isabs (f x)) by (apply HF; left; reflexivity).
      assert (H1 : isabs (nmax v0 (f x)) /\ nle v0 (nmax v0 (f x)) /\ nle (f x) (nmax v0 (f x)) /\
        (nmax v0 (f x) = v0 \/ nmax v0 (f x) = f x)).
      { unfold nmax. destruct (nltb v0 (f x)) eqn:E.
        - split; [assumption|]. split; [apply nle_lt; assumption|]. split; [apply nle_refl; assumption|right; reflexivity].
        - split; [assumption|]. split; [apply nle_refl; assumption|]. split; [exact E|left; reflexivity]. }
      destruct H1 as (A1 & A2 & A3 & A4).
      destruct (IH (nmax v0 (f x)) A1 (fun y Hy => HF y (or_intror Hy))) as (B1 & B2 & B3 & B4).
      split; [assumption|]. split; [eapply nle_trans; [exact H0|exact A1|exact B1|assumption|assumption]|].
      split.
      + intros y [<-|Hy]; [eapply nle_trans; [exact Hx|exact A1|exact B1|assumption|assumption]|auto].
      + destruct B4 as [B4|(y & Hy & B4)].
        * destruct A4 as [A4|A4]; [left; congruence|right]. exists x. split; [left; reflexivity|congruence].
        * right. exists y. split; [right; assumption|assumption].
  Qed.

  (* the maximum, starting from zero *)
  Lemma fold_largest : forall (I : Type) (P : I -> Prop) (f : I -> N) L,
    (forall x, In x L <-> P x) -> (forall x, P x -> isabs (f x)) ->
    largest P f (fold_left (fun v x => nmax v (f x)) L n0).
  Proof.
    intros I P f L HL HF.
    destruct (fold_max I f L n0 isabs_0) as (A & B & C & D); [intros x Hx; apply HF, HL, Hx|].
    split; [intros x Hx; apply C, HL, Hx|].
    destruct D as [D|(x & Hx & D)]; [|left; exists x; split; [apply HL; assumption|assumption]].
    destruct L as [|x L].
    - right. split; [intros x Hx; apply HL in Hx; destruct Hx|reflexivity].
    - left. exists x. assert (Hx : In x (x :: L)) by (left; reflexivity). split; [apply HL; assumption|].
      rewrite D. symmetry. apply nle_0_eq; [apply HF, HL, Hx|]. rewrite <- D. apply C. assumption.
  Qed.

  (* the maximum, starting from the first element *)
  Lemma fold_largest_first : forall (f : Z -> N) n, 0 < n -> (forall i, 0 <= i < n -> isabs (f i)) ->
    largest (fun i => 0 <= i < n) f (fold_left (fun v i => nmax v (f i)) (zrange 1 n) (f 0)).
  Proof.
    intros f n Hn HF.
    destruct (fold_max Z f (zrange 1 n) (f 0)) as (A & B & C & D);
      [apply HF; lia|intros x Hx; apply in_zrange in Hx; apply HF; lia|].
    split.
    - intros x Hx. destruct (Z.eq_dec x 0) as [->|NE]; [exact B|]. apply C. apply in_zrange. lia.
    - left. destruct D as [D|(x & Hx & D)]; [exists 0; split; [lia|assumption]|].
      apply in_zrange in Hx. exists x. split; [lia|assumption].
  Qed.

  Lemma largest_ext : forall (I : Type) (P : I -> Prop) (f g : I -> N) v,
    (forall x, P x -> f x = g x) -> largest P f v -> largest P g v.
  Proof.
    intros I P f g v E [H1 H2]. split.
    - intros x Hx. rewrite <- E by assumption. auto.
    - destruct H2 as [(x & Hx & H2)|H2]; [left|right; assumption]. exists x. rewrite <- E by assumption. auto.
  Qed.

  (* maxima of maxima *)
  Lemma largest_nested : forall (I J : Type) (P : J -> Prop) (R : J -> I -> Prop) (S : I -> Prop) (f : I -> N) (g : J -> N) v,
    (forall i, S i -> isabs (f i)) ->
    (forall j, P j -> exists i, R j i) ->
    (forall i, S i <-> exists j, P j /\ R j i) ->
    (forall j, P j -> largest (R j) f (g j)) -> largest P g v -> isabs v -> largest S f v.
  Proof.
    intros I J P R S f g v HF HN HS HG [V1 V2] HV.
    assert (GA : forall j, P j -> isabs (g j)).
    { intros j Hj. destruct (HG j Hj) as [_ [(i & Hi & E)|[_ E]]]; rewrite E; [|apply isabs_0].
      apply HF, HS. exists j. auto. }
    split.
    - intros i Hi. pose proof Hi as Hi'. apply HS in Hi'. destruct Hi' as (j & Hj & Hr).
      apply (nle_trans (f i) (g j) v); auto.
      + apply (HG j Hj). assumption.
      + apply V1. assumption.
    - destruct V2 as [(j & Hj & E)|[V2 E]].
      + left. destruct (HG j Hj) as [_ [(i & Hi & E2)|[X _]]].
        * exists i. split; [apply HS; exists j; auto|congruence].
        * destruct (HN j Hj) as [i Hi]. destruct (X i Hi).
      + right. split; [|assumption]. intros i Hi. apply HS in Hi. destruct Hi as (j & Hj & _). apply (V2 j Hj).
  Qed.

  Lemma largest_abs : forall (I : Type) (P : I -> Prop) (f : I -> N) v, (forall x, P x -> isabs (f x)) ->
    largest P f v -> isabs v.
  Proof. intros I P f v H [_ [(x & Hx & ->)|[_ ->]]]; auto using isabs_0. Qed.

  Lemma fold_nested : forall (I J A : Type) (h : A -> I * J -> A) (L1 : list I) (L2 : list J) v,
    fold_left (fun v j => fold_left (fun v i => h v (i, j)) L1 v) L2 v
    = fold_left h (flat_map (fun j => map (fun i => (i, j)) L1) L2) v.
  Proof.
    intros I J A h L1 L2. induction L2 as [|j L2 IH]; intros v; cbn [fold_left flat_map]; [reflexivity|].
    rewrite fold_left_app, IH. apply f_equal. clear IH. revert v.
    induction L1 as [|i L1 IH]; intros v; cbn [map fold_left]; [reflexivity|]. apply IH.
  Qed.

  Lemma lange_max_largest : forall m n (f : Z -> Z -> N),
    largest (fun p => in_matrix m n (fst p) (snd p)) (fun p : Z * Z => nabs (f (fst p) (snd p))) (lange_max m n f).
  Proof.
    intros m n f. unfold lange_max.
    pose proof (fold_nested Z Z N (fun v p => nmax v (nabs (f (fst p) (snd p)))) (zrange 0 m) (zrange 0 n) n0) as E.
    cbn [fst snd] in E. rewrite E. clear E.
    apply fold_largest; [|intros; apply isabs_abs].
    intros [i j]. rewrite in_flat_map. unfold in_matrix. cbn [fst snd]. split.
    - intros (j' & Hj & Hi). apply in_map_iff in Hi. destruct Hi as (i' & E & Hi). injection E as -> ->.
      apply in_zrange in Hi, Hj. lia.
    - intros [Hi Hj]. exists j. rewrite in_zrange. split; [assumption|]. apply in_map_iff. exists i.
      rewrite in_zrange. auto.
  Qed.

  Lemma fold_add : forall (f : Z -> N) a b s, fold_left (fun s i => nadd s (f i)) (zrange a b) s = nadd s (nsum f a b).
  Proof.
    intros f a b s. pattern b. apply (zrange_ind_hi _ a); clear b.
    - intros b H. rewrite zrange_nil, nsum_nil by lia. cbn. ring.
    - intros b H IH. rewrite zrange_snoc, fold_left_app, nsum_snoc by lia. cbn [fold_left]. rewrite IH. ring.
  Qed.

  Lemma lange_row_sum : forall n (f : Z -> Z -> N) i, lange_row n f i = nsum (fun j => nabs (f i j)) 0 n.
  Proof. intros. unfold lange_row. rewrite (fold_add (fun j => nabs (f i j))). ring. Qed.
  Lemma aux_inf_sum : forall n (f : Z -> Z -> N) i, aux_inf n f i = nsum (fun j => nabs (f i j)) 0 n.
  Proof. exact lange_row_sum. Qed.
  Lemma aux_one_sum : forall m (f : Z -> Z -> N) j, 0 < m -> aux_one m f j = nsum (fun i => nabs (f i j)) 0 m.
  Proof.
    intros m f j Hm. unfold aux_one. rewrite (fold_add (fun i => nabs (f i j))).
    rewrite (nsum_cons N (fun i => nabs (f i j)) 0 m) by lia. reflexivity.
  Qed.

  Lemma lange_inf_largest : forall m n (f : Z -> Z -> N),
    largest (fun i => 0 <= i < m) (fun i => nsum (fun j => nabs (f i j)) 0 n) (lange_inf m n f).
  Proof.
    intros m n f. unfold lange_inf.
    apply (largest_ext Z _ (lange_row n f)); [intros; apply lange_row_sum|].
    apply fold_largest; [intros; apply in_zrange|]. intros i Hi. rewrite lange_row_sum.
    apply isabs_sum. intros. apply isabs_abs.
  Qed.

  (* ---------------------------------------------------------------- *)
  (* scaled sums of squares *)

  Definition ssq_ok (s : N * N) (t : N) : Prop :=
    isabs (fst s) /\ isabs (snd s) /\ nmul (nmul (fst s) (fst s)) (snd s) = t.

  Lemma lt_nz : forall x y, isabs x -> isabs y -> nltb x y = true -> y <> n0.
  Proof.
    intros x y Hx Hy H E. subst y. pose proof (nltb_0 N x) as Z. unfold isabs in Hx. rewrite Hx in Z. congruence.
  Qed.

  Lemma ssq_add_ok : forall s t scl sum u, ssq_ok s t -> ssq_ok (scl, sum) u -> ssq_ok (ssq_add s scl sum) (nadd t u).
  Proof.
    intros [a b] t scl sum u (A1 & A2 & A3) (B1 & B2 & B3). cbn [fst snd] in *. unfold ssq_add. cbn [fst snd].
    destruct (nltb a scl) eqn:E.
    - assert (NZ : scl <> n0) by (apply (lt_nz a); assumption). pose proof (finv_l N scl NZ) as L.
      assert (AI : isabs (finv scl)) by (apply isabs_inv; assumption).
      split; cbn [fst snd]; [assumption|]. split; [auto using isabs_add, isabs_mul|].
      rewrite <- A3, <- B3.
      transitivity (nadd (nmul (nmul scl scl) sum)
        (nmul (nmul (nmul (finv scl) scl) (nmul (finv scl) scl)) (nmul (nmul a a) b))); [ring|]. rewrite L. ring.
    - destruct (nltb n0 a) eqn:E2.
      + assert (NZ : a <> n0) by (apply (lt_nz n0); auto using isabs_0). pose proof (finv_l N a NZ) as L.
        assert (AI : isabs (finv a)) by (apply isabs_inv; assumption).
        split; cbn [fst snd]; [assumption|]. split; [auto 10 using isabs_add, isabs_mul|].
        rewrite <- A3, <- B3.
        transitivity (nadd (nmul (nmul a a) b)
          (nmul (nmul (nmul (finv a) a) (nmul (finv a) a)) (nmul (nmul scl scl) sum))); [ring|]. rewrite L. ring.
      + assert (Z1 : a = n0) by (apply nle_0_eq; assumption).
        assert (Z2 : scl = n0). { apply nle_0_eq; [assumption|]. rewrite <- Z1. exact E. }
        split; [assumption|]. split; [assumption|]. cbn [fst snd]. rewrite <- A3, <- B3, Z2. ring.
  Qed.

  Lemma ssq_start : ssq_ok (n0, n1) n0.
  Proof. split; [apply isabs_0|]. split; [apply isabs_1|]. cbn [fst snd]. ring. Qed.

  Lemma ssq_fold : forall (I : Type) (L : list I) (scl sum tot : I -> N) s t,
    (forall x, In x L -> ssq_ok (scl x, sum x) (tot x)) -> ssq_ok s t ->
    ssq_ok (fold_left (fun s x => ssq_add s (scl x) (sum x)) L s)
           (nadd t (fold_right (fun x u => nadd (tot x) u) n0 L)).
  Proof.
    intros I L scl sum tot. induction L as [|x L IH]; intros s t H HS; cbn [fold_left fold_right].
    - replace (nadd t n0) with t by ring. assumption.
    - replace (nadd t (nadd (tot x) (fold_right (fun x u => nadd (tot x) u) n0 L)))
        with (nadd (nadd t (tot x)) (fold_right (fun x u => nadd (tot x) u) n0 L)) by ring.
      apply IH; [intros; apply H; right; assumption|]. apply ssq_add_ok; [assumption|]. apply H. left; reflexivity.
  Qed.

  Lemma lassq_ssq : forall lassq xs s t, lassq_ok lassq -> ssq_ok s t ->
    ssq_ok (lassq xs s) (nadd t (fold_right (fun x u => nadd (nmul (nabs x) (nabs x)) u) n0 xs)).
  Proof.
    intros lassq xs s t HL (A & B & C). destruct (HL xs s A B) as (A' & B' & C').
    split; [assumption|]. split; [assumption|]. rewrite C', C. reflexivity.
  Qed.

  Definition sqs (f : Z -> Z -> N) (i j : Z) : N := nmul (nabs (f i j)) (nabs (f i j)).

  Lemma fold_right_map_sum : forall (g : N -> N) (f : Z -> N) a b,
    fold_right (fun x u => nadd (g x) u) n0 (map f (zrange a b)) = nsum (fun i => g (f i)) a b.
  Proof. intros g f a b. unfold nsum. induction (zrange a b); cbn; [reflexivity|]. rewrite IHl. reflexivity. Qed.

  Lemma gessq_ok : forall lassq m n (f : Z -> Z -> N), lassq_ok lassq ->
    ssq_ok (gessq lassq m n f) (nsum (fun j => nsum (fun i => sqs f i j) 0 m) 0 n).
  Proof.
    intros lassq m n f HL. unfold gessq. pattern n. apply (zrange_ind_hi _ 0); clear n.
    - intros n H. rewrite (zrange_nil 0 n), nsum_nil by lia. apply ssq_start.
    - intros n H IH. rewrite (zrange_snoc 0 n), fold_left_app, nsum_snoc by lia. cbn [fold_left].
      apply (lassq_ssq lassq (map (fun i => f i n) (zrange 0 m))) in IH; [|assumption].
      rewrite (fold_right_map_sum (fun x => nmul (nabs x) (nabs x))) in IH. exact IH.
  Qed.
End Max.
