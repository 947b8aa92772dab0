(* The Cholesky factorization column by column, and its blocks. *)
From Coq Require Import ZArith List Bool Lia Ring.
From Verif Require Import Base NumModel NumProofs FieldModel SimProofs TriModel TriVecProofs PotrfModel.
Import ListNotations.
Open Scope Z_scope.

(* position (from 1) of the first element of a range with property p, 0 if there is none *)
Definition first_bad (p : Z -> bool) (a b : Z) : Z :=
  match find p (zrange a b) with Some j => j + 1 | None => 0 end.

Lemma find_app : forall A (p : A -> bool) l l',
  find p (l ++ l') = match find p l with Some x => Some x | None => find p l' end.
Proof. induction l as [|x l IH]; intros l'; cbn; [reflexivity|]. destruct (p x); auto. Qed.

Lemma first_bad_nil : forall p a b, b <= a -> first_bad p a b = 0.
Proof. intros. unfold first_bad. rewrite zrange_nil by lia. reflexivity. Qed.

Lemma first_bad_range : forall p a b, 0 <= a ->
  first_bad p a b = 0 \/ a < first_bad p a b <= b.
Proof.
  intros p a b Ha. unfold first_bad. destruct (find p (zrange a b)) eqn:E; [|left; reflexivity].
  apply find_some in E. destruct E as [E _]. apply in_zrange in E. right. lia.
Qed.

Lemma first_bad_app : forall p a b c, 0 <= a -> a <= b <= c ->
  first_bad p a c = if first_bad p a b =? 0 then first_bad p b c else first_bad p a b.
Proof.
  intros p a b c Ha Hb. unfold first_bad in *.
  rewrite (zrange_app a b c) by lia. rewrite find_app. destruct (find p (zrange a b)) eqn:E; [|reflexivity].
  apply find_some in E. destruct E as [E _]. apply in_zrange in E.
  replace (z + 1 =? 0) with false by (symmetry; apply Z.eqb_neq; lia). reflexivity.
Qed.

Lemma first_bad_ext : forall p q a b, (forall j, a <= j < b -> p j = q j) -> first_bad p a b = first_bad q a b.
Proof.
  intros p q a b H. unfold first_bad. f_equal.
  assert (G : forall l, (forall x, In x l -> p x = q x) -> find p l = find q l).
  { induction l as [|x l IH]; intros HX; cbn; [reflexivity|]. rewrite (HX x) by (left; reflexivity).
    rewrite IH by (intros; apply HX; right; assumption). reflexivity. }
  rewrite (G (zrange a b)); [reflexivity|]. intros x Hx. apply in_zrange in Hx. apply H. lia.
Qed.

Lemma first_bad_zero : forall p a b, first_bad p a b = 0 -> 0 <= a -> forall j, a <= j < b -> p j = false.
Proof.
  intros p a b H Ha j Hj. pose proof (first_bad_range p a b Ha) as R. unfold first_bad in H.
  destruct (find p (zrange a b)) eqn:E.
  - apply find_some in E. destruct E as [E _]. apply in_zrange in E. lia.
  - apply (find_none _ _ E). apply in_zrange. assumption.
Qed.

Lemma find_first : forall (p : Z -> bool) a b x, find p (zrange a b) = Some x ->
  p x = true /\ a <= x < b /\ forall j, a <= j < x -> p j = false.
Proof.
  intros p a b x E. pose proof (find_some _ _ E) as [E1 E2]. apply in_zrange in E1.
  split; [assumption|]. split; [assumption|]. intros j Hj. destruct (p j) eqn:Ej; [|reflexivity]. exfalso.
  rewrite (zrange_app a (j + 1) b) in E by lia. rewrite find_app in E.
  destruct (find p (zrange a (j + 1))) eqn:Ef.
  - injection E as ->. apply find_some in Ef. destruct Ef as [Ef _]. apply in_zrange in Ef. lia.
  - pose proof (find_none _ _ Ef j) as N. rewrite N in Ej; [discriminate|]. apply in_zrange. lia.
Qed.

Lemma first_bad_pos : forall p a b s, 0 <= a -> first_bad p a b = s -> s <> 0 ->
  a < s <= b /\ p (s - 1) = true /\ forall j, a <= j < s - 1 -> p j = false.
Proof.
  intros p a b s Ha H Hs. unfold first_bad in H. destruct (find p (zrange a b)) eqn:E; [|congruence].
  apply find_first in E. destruct E as (E1 & E2 & E3). subst s.
  replace (z + 1 - 1) with z by lia. repeat split; auto; lia.
Qed.

Lemma first_bad_shift : forall p a b, 0 <= a -> 0 <= b ->
  first_bad p a (a + b) = let s := first_bad (fun j => p (a + j)) 0 b in if s =? 0 then 0 else a + s.
Proof.
  intros p a b Ha Hb. cbv zeta. unfold first_bad.
  replace (zrange a (a + b)) with (map (fun i => i + a) (zrange 0 b)).
  2:{ rewrite <- zrange_shift. f_equal; lia. }
  assert (G : forall l, find p (map (fun i => i + a) l)
     = match find (fun j => p (a + j)) l with Some x => Some (x + a) | None => None end).
  { induction l as [|x l IH]; cbn; [reflexivity|]. rewrite (Z.add_comm x a). destruct (p (a + x)); auto.
    rewrite (Z.add_comm a x). reflexivity. }
  rewrite G. destruct (find (fun j => p (a + j)) (zrange 0 b)) eqn:E; [|reflexivity].
  apply find_some in E. destruct E as [E _]. apply in_zrange in E.
  replace (z + 1 =? 0) with false by (symmetry; apply Z.eqb_neq; lia). lia.
Qed.

Section Chol.
  Context {F : fields}.
  Add Ring num_ring_chol : (nring F).
  Variable R : roots F.
  Variable rp : F -> F.

  Definition rtot (d : F) : F := match rt R d with Some r => r | None => n1 end.
  Definition piv (L S : Z -> Z -> F) (j : Z) : F :=
    nsub (S j j) (nsum (fun l => nmul (L j l) (nconj (L j l))) 0 j).
  Definition badp (d : F) : bool := match rt R d with Some _ => false | None => true end.
  Definition res (L S : Z -> Z -> F) (i j : Z) : F :=
    nsub (S i j) (nsum (fun l => nmul (L i l) (nconj (L j l))) 0 j).
  Definition chol_eqs (n : Z) (S L : Z -> Z -> F) : Prop := forall j, 0 <= j < n ->
    L j j = rtot (rp (piv L S j)) /\
    forall i, j < i < n -> L i j = nmul (finv (L j j)) (res L S i j).

  Lemma rtot_real : forall d, nconj (rtot d) = rtot d.
  Proof. intros d. unfold rtot. destruct (rt R d) eqn:E; [eapply rt_real; eauto|apply nconj_1]. Qed.
  Lemma rtot_nz : forall d, rtot d <> n0.
  Proof. intros d. unfold rtot. destruct (rt R d) eqn:E; [eapply rt_nz; eauto|apply (rt_one F R)]. Qed.
  Lemma rtot_sq : forall d, badp d = false -> nmul (rtot d) (rtot d) = d.
  Proof. intros d H. unfold badp, rtot in *. destruct (rt R d) eqn:E; [eapply rt_sq; eauto|discriminate]. Qed.

  Lemma potf2_snoc : forall n S, 0 <= n -> potf2 R rp (n + 1) S = potf2_step R rp (potf2 R rp n S) n.
  Proof. intros n S Hn. unfold potf2. rewrite zrange_snoc by lia. rewrite fold_left_app. reflexivity. Qed.

  (* the algorithm satisfies the equations *)
  Lemma potf2_inv : forall S n, 0 <= n ->
    (forall i c, ~ (0 <= c < n /\ c <= i) -> fst (potf2 R rp n S) i c = S i c) /\
    (forall m, chol_eqs m S (fst (potf2 R rp n S)) \/ n < m) /\
    (forall j, 0 <= j < n ->
       fst (potf2 R rp n S) j j = rtot (rp (piv (fst (potf2 R rp n S)) S j)) /\
       forall i, j < i -> fst (potf2 R rp n S) i j
         = nmul (finv (fst (potf2 R rp n S) j j)) (res (fst (potf2 R rp n S)) S i j)) /\
    snd (potf2 R rp n S) = first_bad (fun j => badp (rp (piv (fst (potf2 R rp n S)) S j))) 0 n.
  Proof.
    intros S n Hn.
    assert (G : (forall i c, ~ (0 <= c < n /\ c <= i) -> fst (potf2 R rp n S) i c = S i c) /\
      (forall j, 0 <= j < n ->
       fst (potf2 R rp n S) j j = rtot (rp (piv (fst (potf2 R rp n S)) S j)) /\
       forall i, j < i -> fst (potf2 R rp n S) i j
         = nmul (finv (fst (potf2 R rp n S) j j)) (res (fst (potf2 R rp n S)) S i j)) /\
      snd (potf2 R rp n S) = first_bad (fun j => badp (rp (piv (fst (potf2 R rp n S)) S j))) 0 n).
    2:{ destruct G as (G1 & G2 & G3). split; [assumption|]. split; [|split; assumption].
        intros m. destruct (Z_lt_le_dec n m) as [H|H]; [right; assumption|left].
        intros j Hj. destruct (G2 j ltac:(lia)) as [A B]. split; [assumption|]. intros i Hi. apply B. lia. }
    revert Hn. pattern n. apply (zrange_ind_hi _ 0); clear n.
    - intros n H1 H2. assert (n = 0) as -> by lia. split; [reflexivity|]. split; [intros; lia|reflexivity].
    - intros n H1 IH _. specialize (IH H1). destruct IH as (I1 & I2 & I3).
      rewrite potf2_snoc by lia. remember (potf2 R rp n S) as s eqn:Es.
      assert (OLD : forall i c, c <> n -> fst (potf2_step R rp s n) i c = fst s i c).
      { intros i c H. cbn. replace (c =? n) with false by (symmetry; apply Z.eqb_neq; lia). reflexivity. }
      assert (ROW : forall i j, j <= n -> nsum (fun l => nmul (fst (potf2_step R rp s n) i l) (nconj (fst (potf2_step R rp s n) j l))) 0 j
         = nsum (fun l => nmul (fst s i l) (nconj (fst s j l))) 0 j).
      { intros i j Hj. apply nsum_ext. intros l Hl. rewrite !OLD by lia. reflexivity. }
      assert (PIV : forall j, j <= n -> piv (fst (potf2_step R rp s n)) S j = piv (fst s) S j).
      { intros j Hj. unfold piv. rewrite ROW by lia. reflexivity. }
      assert (RES : forall i j, j <= n -> res (fst (potf2_step R rp s n)) S i j = res (fst s) S i j).
      { intros i j Hj. unfold res. rewrite ROW by lia. reflexivity. }
      assert (DN : rp (nsub (fst s n n) (nsum (fun l => nmul (fst s n l) (nconj (fst s n l))) 0 n)) = rp (piv (fst s) S n)).
      { unfold piv. rewrite I1 by lia. reflexivity. }
      split; [|split].
      + intros i c H. destruct (Z.eq_dec c n) as [->|Hne].
        * cbn. rewrite Z.eqb_refl. replace (n <=? i) with false by (symmetry; apply Z.leb_gt; lia).
          cbn. apply I1. lia.
        * rewrite OLD by assumption. apply I1. lia.
      + intros j Hj. rewrite PIV by lia. destruct (Z.eq_dec j n) as [->|Hne].
        * assert (D : fst (potf2_step R rp s n) n n = rtot (rp (piv (fst s) S n))).
          { cbn. rewrite Z.eqb_refl, Z.leb_refl. cbn. rewrite DN. reflexivity. }
          split; [assumption|]. intros i Hi. rewrite RES by lia. rewrite D. cbn. rewrite Z.eqb_refl.
          replace (n <=? i) with true by (symmetry; apply Z.leb_le; lia). cbn.
          replace (i =? n) with false by (symmetry; apply Z.eqb_neq; lia). rewrite DN. unfold res.
          rewrite I1 by lia. reflexivity.
        * destruct (I2 j ltac:(lia)) as [D1 D2]. rewrite OLD by lia. split; [assumption|].
          intros i Hi. rewrite RES by lia. rewrite !OLD by lia. apply D2. assumption.
      + rewrite (first_bad_app _ 0 n) by lia.
        rewrite (first_bad_ext _ (fun j => badp (rp (piv (fst s) S j))) 0 n) by (intros; rewrite PIV by lia; reflexivity).
        rewrite <- I3. unfold potf2_step at 1. cbn [snd]. rewrite DN.
        destruct (snd s =? 0); [|reflexivity].
        unfold first_bad. rewrite zrange_cons by lia. rewrite zrange_nil by lia. cbn [find].
        rewrite PIV by lia. unfold badp. destruct (rt R (rp (piv (fst s) S n))); reflexivity.
  Qed.

  Lemma chol_unique : forall n S L L', chol_eqs n S L -> chol_eqs n S L' ->
    forall j i, 0 <= j <= i -> i < n -> L i j = L' i j.
  Proof.
    intros n S L L' E E'.
    assert (G : forall b j, 0 <= j < b -> forall i, j <= i < n -> L i j = L' i j).
    { intros b. pattern b. apply (zrange_ind_hi _ 0); clear b; [intros; lia|].
      intros b Hb IH j Hj i Hi.
      assert (RW : forall i, j <= i < n -> nsum (fun l => nmul (L i l) (nconj (L j l))) 0 j
         = nsum (fun l => nmul (L' i l) (nconj (L' j l))) 0 j).
      { intros i' Hi'. apply nsum_ext. intros l Hl. rewrite (IH l ltac:(lia) i' ltac:(lia)), (IH l ltac:(lia) j ltac:(lia)). reflexivity. }
      destruct (E j ltac:(lia)) as [D1 D2]. destruct (E' j ltac:(lia)) as [D1' D2'].
      assert (DD : L j j = L' j j). { rewrite D1, D1'. unfold piv. rewrite RW by lia. reflexivity. }
      destruct (Z.eq_dec i j) as [->|Hne]; [assumption|].
      rewrite D2, D2' by lia. rewrite DD. unfold res. rewrite RW by lia. reflexivity. }
    intros j i Hj Hi. apply (G (j + 1)); lia.
  Qed.

  (* a diagonal block, after the columns before it have been subtracted *)
  Lemma chol_block : forall n S L c s T, chol_eqs n S L -> 0 <= c -> c + s <= n ->
    (forall i j, 0 <= j <= i -> i < s ->
       T i j = nsub (S (c + i) (c + j)) (nsum (fun l => nmul (L (c + i) l) (nconj (L (c + j) l))) 0 c)) ->
    chol_eqs s T (fun i j => L (c + i) (c + j)) /\
    forall j, 0 <= j < s -> piv (fun i j => L (c + i) (c + j)) T j = piv L S (c + j).
  Proof.
    intros n S L c s T E Hc Hs HT.
    assert (RW : forall i j, 0 <= j <= i -> i < s -> res (fun i j => L (c + i) (c + j)) T i j = res L S (c + i) (c + j)).
    { intros i j Hj Hi. unfold res. rewrite HT by lia.
      rewrite (nsum_app _ (fun l => nmul (L (c + i) l) (nconj (L (c + j) l))) 0 c (c + j)) by lia.
      replace (nsum (fun l => nmul (L (c + i) l) (nconj (L (c + j) l))) c (c + j))
        with (nsum (fun l => nmul (L (c + i) (c + l)) (nconj (L (c + j) (c + l)))) 0 j).
      - ring.
      - pose proof (nsum_shift F (fun l => nmul (L (c + i) l) (nconj (L (c + j) l))) c 0 j) as SH.
        rewrite Z.add_0_l, (Z.add_comm j c) in SH. rewrite SH.
        apply nsum_ext. intros l Hl. rewrite (Z.add_comm l c). reflexivity. }
    assert (PV : forall j, 0 <= j < s -> piv (fun i j => L (c + i) (c + j)) T j = piv L S (c + j)).
    { intros j Hj. apply (RW j j); lia. }
    split; [|assumption]. intros j Hj. rewrite PV by assumption.
    destruct (E (c + j) ltac:(lia)) as [D1 D2]. split; [assumption|].
    intros i Hi. rewrite RW by lia. apply D2. lia.
  Qed.

  Lemma potf2_block : forall n S L c s T, chol_eqs n S L -> 0 <= c -> 0 <= s -> c + s <= n ->
    (forall i j, 0 <= j <= i -> i < s ->
       T i j = nsub (S (c + i) (c + j)) (nsum (fun l => nmul (L (c + i) l) (nconj (L (c + j) l))) 0 c)) ->
    (forall i j, 0 <= j <= i -> i < s -> fst (potf2 R rp s T) i j = L (c + i) (c + j)) /\
    (let info := snd (potf2 R rp s T) in
     (if info =? 0 then 0 else c + info) = first_bad (fun j => badp (rp (piv L S j))) c (c + s)).
  Proof.
    intros n S L c s T E Hc Hs Hn HT. destruct (chol_block n S L c s T E Hc Hn HT) as [B1 B2].
    destruct (potf2_inv T s Hs) as (I1 & I2 & I3 & I4).
    assert (E2 : chol_eqs s T (fst (potf2 R rp s T))) by (destruct (I2 s); [assumption|lia]).
    assert (U : forall i j, 0 <= j <= i -> i < s -> fst (potf2 R rp s T) i j = L (c + i) (c + j)).
    { intros i j Hj Hi. apply (chol_unique s T _ _ E2 B1 j i); assumption. }
    split; [assumption|]. cbv zeta. rewrite first_bad_shift by lia. cbv zeta.
    rewrite I4. rewrite (first_bad_ext _ (fun j => badp (rp (piv L S (c + j)))) 0 s); [reflexivity|].
    intros j Hj. rewrite <- B2 by lia. unfold piv. rewrite (nsum_ext F _ (fun l => nmul (L (c + j) (c + l)) (nconj (L (c + j) (c + l))))); [reflexivity|].
    intros l Hl. rewrite !U by lia. reflexivity.
  Qed.

  (* only the lower triangle matters *)
  Lemma potf2_ext : forall n S S', 0 <= n -> (forall i j, 0 <= j <= i -> i < n -> S i j = S' i j) ->
    (forall i j, 0 <= j <= i -> i < n -> fst (potf2 R rp n S) i j = fst (potf2 R rp n S') i j) /\
    snd (potf2 R rp n S) = snd (potf2 R rp n S').
  Proof.
    intros n S S' Hn HS. destruct (potf2_inv S n Hn) as (_ & I2 & _ & I4).
    destruct (potf2_inv S' n Hn) as (_ & I2' & _ & I4').
    assert (E : chol_eqs n S (fst (potf2 R rp n S))) by (destruct (I2 n); [assumption|lia]).
    assert (E' : chol_eqs n S' (fst (potf2 R rp n S'))) by (destruct (I2' n); [assumption|lia]).
    assert (E2 : chol_eqs n S' (fst (potf2 R rp n S))).
    { intros j Hj. destruct (E j Hj) as [D1 D2]. unfold piv, res in *. rewrite <- HS by lia.
      split; [assumption|]. intros i Hi. rewrite <- HS by lia. apply D2. assumption. }
    assert (U : forall i j, 0 <= j <= i -> i < n -> fst (potf2 R rp n S) i j = fst (potf2 R rp n S') i j).
    { intros i j Hj Hi. apply (chol_unique n S' _ _ E2 E'); assumption. }
    split; [assumption|]. rewrite I4, I4'. apply first_bad_ext. intros j Hj. apply f_equal. apply f_equal.
    unfold piv. rewrite HS by lia. apply f_equal. apply nsum_ext. intros l Hl. rewrite !U by lia. reflexivity.
  Qed.

  (* ---- consequences of the equations ---- *)
  Section Eqs.
    Variables (n : Z) (S L : Z -> Z -> F).
    Hypothesis E : chol_eqs n S L.

    Lemma chol_diag_real : forall j, 0 <= j < n -> nconj (L j j) = L j j.
    Proof. intros j Hj. destruct (E j Hj) as [-> _]. apply rtot_real. Qed.
    Lemma chol_diag_nz : forall j, 0 <= j < n -> L j j <> n0.
    Proof. intros j Hj. destruct (E j Hj) as [-> _]. apply rtot_nz. Qed.

    (* row i of the factor solves a triangular system *)
    Lemma chol_row : forall i j, 0 <= j < i -> i < n ->
      nsum (fun l => nmul (L i l) (nconj (L j l))) 0 (j + 1) = S i j.
    Proof.
      intros i j Hj Hi. rewrite nsum_snoc by lia. destruct (E j ltac:(lia)) as [_ D].
      rewrite (chol_diag_real j) by lia. rewrite (D i ltac:(lia)).
      transitivity (nadd (nsum (fun l => nmul (L i l) (nconj (L j l))) 0 j)
        (nmul (nmul (finv (L j j)) (L j j)) (res L S i j))).
      - rewrite <- (D i ltac:(lia)) at 1. rewrite (D i ltac:(lia)). ring.
      - rewrite finv_l by (apply chol_diag_nz; lia). unfold res. ring.
    Qed.

    Lemma piv_real : forall j, nconj (S j j) = S j j -> nconj (piv L S j) = piv L S j.
    Proof.
      intros j H. unfold piv. rewrite nconj_sub, H, nconj_sum. f_equal. apply nsum_ext.
      intros l _. rewrite nconj_mul, nconj_conj. ring.
    Qed.

    Hypothesis Hrp : forall x, nconj x = x -> rp x = x.
    Lemma chol_diag : forall j, 0 <= j < n -> nconj (S j j) = S j j -> badp (piv L S j) = false ->
      nsum (fun l => nmul (L j l) (nconj (L j l))) 0 (j + 1) = S j j.
    Proof.
      intros j Hj HS HB. rewrite nsum_snoc by lia. rewrite (chol_diag_real j Hj).
      destruct (E j Hj) as [D _]. rewrite (Hrp _ (piv_real j HS)) in D.
      replace (nmul (L j j) (L j j)) with (piv L S j).
      - unfold piv. ring.
      - rewrite D. symmetry. apply rtot_sq. assumption.
    Qed.
  End Eqs.

  (* the solution of a triangular system is unique *)
  Lemma solve_unique : forall T n (b y : Z -> F), (forall i, 0 <= i < n -> T i i <> n0) ->
    (forall r l, 0 <= r < n -> r < l < n -> T r l = n0) ->
    (forall r, 0 <= r < n -> nsum (fun l => nmul (T r l) (y l)) 0 (r + 1) = b r) ->
    forall r, 0 <= r < n -> solve_along T [] (zrange 0 n) b r = y r.
  Proof.
    intros T n b y HD HT HY.
    assert (HX : forall r, 0 <= r < n ->
      nsum (fun l => nmul (T r l) (solve_along T [] (zrange 0 n) b l)) 0 (r + 1) = b r).
    { intros r Hr. rewrite <- (solve_lower T n b r HD HT Hr).
      rewrite (nsum_app _ _ 0 (r + 1) n) by lia. rewrite (nsum_0 _ _ (r + 1) n).
      - ring.
      - intros l Hl. rewrite HT by lia. ring. }
    remember (solve_along T [] (zrange 0 n) b) as x eqn:Ex. clear Ex.
    assert (G : forall c r, 0 <= r < c -> r < n -> x r = y r).
    { intros c. pattern c. apply (zrange_ind_hi _ 0); clear c; [intros; lia|].
      intros c Hc IH r Hr Hn. specialize (HX r ltac:(lia)). specialize (HY r ltac:(lia)).
      rewrite nsum_snoc in HX, HY by lia.
      rewrite (nsum_ext F (fun l => nmul (T r l) (x l)) (fun l => nmul (T r l) (y l))) in HX
        by (intros l Hl; rewrite IH by lia; reflexivity).
      assert (EQ : nmul (T r r) (x r) = nmul (T r r) (y r)).
      { transitivity (nsub (b r) (nsum (fun l => nmul (T r l) (y l)) 0 r)); [rewrite <- HX|rewrite <- HY]; ring. }
      transitivity (nmul (nmul (finv (T r r)) (T r r)) (x r)); [rewrite finv_l by (apply HD; lia); ring|].
      transitivity (nmul (finv (T r r)) (nmul (T r r) (x r))); [ring|]. rewrite EQ.
      transitivity (nmul (nmul (finv (T r r)) (T r r)) (y r)); [ring|]. rewrite finv_l by (apply HD; lia). ring. }
    intros r Hr. apply (G (r + 1)); lia.
  Qed.
End Chol.
