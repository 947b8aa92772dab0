(* The factorization of a panel as an algorithm on matrices; it computes the factors. *)
From Coq Require Import ZArith List Bool Lia Ring FinFun.
From Verif Require Import Base NumModel NumProofs FieldModel SwpSpec SwpProofs LuProofs GridProofs.
From Verif Require GetrfModel.
Import ListNotations.
Open Scope Z_scope.

(* ------------------------------------------------------------------ *)
(* the tiles of all ranks                                                *)

Notation rank_tiles := GetrfModel.rank_tiles.
Definition all_tiles (size mt : Z) : list Z := flat_map (fun r => rank_tiles r size mt) (zrange 0 size).

Lemma in_rank_tiles : forall r size mt l, 0 < size -> 0 <= r < size ->
  (In l (rank_tiles r size mt) <-> r <= l < mt /\ (l - r) mod size = 0).
Proof.
  intros r size mt l Hs Hr. unfold rank_tiles. rewrite in_map_iff. split.
  - intros (t & <- & Ht). apply in_zrange in Ht.
    assert (B : t <= (mt - r - 1) / size) by lia.
    pose proof (Z.mul_div_le (mt - r - 1) size Hs). split; [nia|].
    replace (r + t * size - r) with (t * size) by lia. apply Z.mod_mul. lia.
  - intros [Hl Hm]. exists ((l - r) / size).
    pose proof (Z.div_mod (l - r) size ltac:(lia)) as E. rewrite Hm in E. split; [lia|].
    apply in_zrange. assert ((l - r) / size <= (mt - r - 1) / size) by (apply Z.div_le_mono; lia).
    pose proof (Z.div_pos (l - r) size ltac:(lia) Hs). lia.
Qed.

Lemma in_all_tiles : forall size mt l, 0 < size -> (In l (all_tiles size mt) <-> 0 <= l < mt).
Proof.
  intros size mt l Hs. unfold all_tiles. rewrite in_flat_map. split.
  - intros (r & Hr & Hl). apply in_zrange in Hr. apply in_rank_tiles in Hl; [lia|lia|lia].
  - intros Hl. pose proof (Z.mod_pos_bound l size Hs). exists (l mod size). split; [apply in_zrange; lia|].
    apply in_rank_tiles; [lia|lia|]. pose proof (Z.mod_le l size). split; [lia|].
    pose proof (Z.div_mod l size ltac:(lia)) as E. replace (l - l mod size) with (l / size * size) by lia.
    apply Z.mod_mul. lia.
Qed.

Lemma NoDup_rank_tiles : forall r size mt, 0 < size -> NoDup (rank_tiles r size mt).
Proof.
  intros r size mt Hs. unfold rank_tiles. apply FinFun.Injective_map_NoDup; [|apply NoDup_zrange].
  intros a b E. nia.
Qed.


Lemma NoDup_all_tiles : forall size mt, 0 < size -> NoDup (all_tiles size mt).
Proof.
  intros size mt Hs. unfold all_tiles.
  assert (G : forall t, t <= size -> NoDup (flat_map (fun r => rank_tiles r size mt) (zrange 0 t))).
  { intros t. pattern t. apply (zrange_ind_hi _ 0); clear t.
    - intros t Ht _. rewrite zrange_nil by assumption. constructor.
    - intros t Ht IH Ht2. rewrite zrange_snoc by assumption. rewrite flat_map_app. cbn [flat_map]. rewrite app_nil_r.
      assert (D : forall x, In x (flat_map (fun r => rank_tiles r size mt) (zrange 0 t)) -> ~ In x (rank_tiles t size mt)).
      { intros x Hx Hx2. apply in_flat_map in Hx. destruct Hx as (r & Hr & Hx). apply in_zrange in Hr.
        apply in_rank_tiles in Hx; [|lia|lia]. apply in_rank_tiles in Hx2; [|lia|lia].
        destruct Hx as [_ Hx], Hx2 as [_ Hx2].
        pose proof (Z.div_mod (x - r) size ltac:(lia)) as E1. pose proof (Z.div_mod (x - t) size ltac:(lia)) as E2.
        rewrite Hx in E1. rewrite Hx2 in E2. assert ((x - r) / size = (x - t) / size) by nia. lia. }
      specialize (IH ltac:(lia)). revert IH D. generalize (flat_map (fun r => rank_tiles r size mt) (zrange 0 t)) as l.
      intros l. induction l as [|a l IHl]; intros ND D; cbn; [apply NoDup_rank_tiles; assumption|].
      inversion ND as [|? ? N1 N2]; subst. constructor.
      + rewrite in_app_iff. intros [H|H]; [contradiction|]. apply (D a); [left; reflexivity|assumption].
      + apply IHl; [assumption|]. intros x Hx. apply D. right; assumption. }
  apply G. lia.
Qed.

Lemma fold_flat_map : forall A B C (f : A -> C -> A) (g : B -> list C) rs (a : A),
  fold_left (fun a r => fold_left f (g r) a) rs a = fold_left f (flat_map g rs) a.
Proof.
  intros A B C f g rs. induction rs as [|r rs IH]; intros a; cbn; [reflexivity|]. rewrite fold_left_app. apply IH.
Qed.

(* work on rows, tile after tile, that only looks at the row and at the first e rows *)
Lemma fold_rows : forall V (rowin : Z -> Z -> bool) (f : (Z -> Z -> V) -> (Z -> V) -> Z -> V) (e : Z) ls X,
  (forall l i, rowin l i = true -> e <= i) ->
  (forall l l' i, rowin l i = true -> rowin l' i = true -> l = l') ->
  (forall X X' x x' c, (forall i c, i < e -> X i c = X' i c) -> (forall c, x c = x' c) -> f X x c = f X' x' c) ->
  NoDup ls -> forall i c,
  fold_left (fun X l i c => if rowin l i then f X (X i) c else X i c) ls X i c =
  if existsb (fun l => rowin l i) ls then f X (X i) c else X i c.
Proof.
  intros V rowin f e ls X H1 H2 H3. revert X. induction ls as [|l ls IH]; intros X ND i c; [reflexivity|].
  inversion ND as [|? ? N1 N2]; subst. cbn [fold_left existsb]. rewrite IH by assumption.
  assert (LOW : forall i c, i < e -> (if rowin l i then f X (X i) c else X i c) = X i c).
  { intros i' c' Hi. destruct (rowin l i') eqn:E; [|reflexivity]. apply H1 in E. lia. }
  destruct (rowin l i) eqn:E; cbn [orb].
  - replace (existsb (fun l0 => rowin l0 i) ls) with false; [reflexivity|]. symmetry. apply not_true_is_false.
    intros Ex. apply existsb_exists in Ex. destruct Ex as (l' & Hl & E'). assert (l = l') by (eapply H2; eassumption).
    subst l'. contradiction.
  - destruct (existsb _ ls); [|reflexivity]. apply H3; auto.
Qed.

(* ------------------------------------------------------------------ *)
(* the search for the largest entry                                      *)

Section Search.
  Context {K : Type}.
  Variable bigger : K -> K -> bool.
  Variable x : Z -> K.

  Definition better (s : Z * K) (d : Z) : Z * K := if bigger (x d) (snd s) then (d, x d) else s.
  Definition best (cs : list Z) (s : Z * K) : Z * K := fold_left better cs s.

  Lemma best_cons : forall c cs d, best (c :: cs) (d, x d) =
    if bigger (x c) (x d) then best cs (c, x c) else best cs (d, x d).
  Proof. intros c cs d. unfold best. cbn [fold_left]. unfold better at 2. cbn [snd]. destruct (bigger _ _); reflexivity. Qed.

  Lemma best_in : forall cs d, In (fst (best cs (d, x d))) (d :: cs) /\ snd (best cs (d, x d)) = x (fst (best cs (d, x d))).
  Proof.
    induction cs as [|c cs IH]; intros d; [cbn; auto|]. rewrite best_cons. destruct (bigger (x c) (x d)).
    - destruct (IH c) as [I1 I2]. split; [|assumption]. right. assumption.
    - destruct (IH d) as [[I1|I1] I2]; (split; [|assumption]); [left|right; right]; assumption.
  Qed.

  (* a strict weak order *)
  Record order : Prop := {
    big_irr : forall a, bigger a a = false;
    big_trans : forall a b c, bigger a b = true -> bigger b c = true -> bigger a c = true;
    big_weak : forall a b c, bigger a c = true -> bigger a b = true \/ bigger b c = true }.
  Hypothesis O : order.

  Lemma best_max : forall cs d d', In d' (d :: cs) -> bigger (x d') (snd (best cs (d, x d))) = false.
  Proof.
    induction cs as [|c cs IH]; intros d d' Hd.
    - destruct Hd as [->|[]]. apply (big_irr O).
    - rewrite best_cons. destruct (bigger (x c) (x d)) eqn:E.
      + destruct Hd as [<-|[<-|Hd]].
        * destruct (bigger (x d) _) eqn:E2; [|reflexivity].
          pose proof (IH c c (or_introl eq_refl)) as H. rewrite (big_trans O _ _ _ E E2) in H. discriminate.
        * apply IH. left; reflexivity.
        * apply IH. right; assumption.
      + destruct Hd as [<-|[<-|Hd]].
        * apply IH. left; reflexivity.
        * destruct (bigger (x c) (snd (best cs (d, x d)))) eqn:E2; [|reflexivity].
          destruct (big_weak O _ (x d) _ E2) as [H|H]; [congruence|]. rewrite IH in H by (left; reflexivity). discriminate.
        * apply IH. right; assumption.
  Qed.
End Search.

Section Abs.
  Context {F : fields}.
  Add Ring num_ring_getrf : (nring F).
  Variable bigger : F -> F -> bool.
  (* a panel of m rows and n <= mb columns in tiles of mb rows; blocks of ib columns; size threads *)
  Variables (m n mb ib size : Z).
  Hypothesis Hn : 0 < n <= mb.
  Hypothesis Hm : 0 < m.
  Hypothesis Hib : 0 < ib.
  Hypothesis Hsize : 0 < size.
  Let mt := (m - 1) / mb + 1.
  Let mv l := Z.min mb (m - l * mb).
  Let q := Z.min m n.

  (* the candidates of tile l in column j, counted from row j *)
  Definition cand (j l : Z) : list Z :=
    if l =? 0 then zrange 1 (mv 0 - j) else map (fun i => mb * l + i - j) (zrange 0 (mv l)).
  Definition a_search_rank (j : Z) (x : Z -> F) (r : Z) : Z * F :=
    fold_left (fun s l => fold_left (better bigger x) (cand j l) s) (rank_tiles r size mt) (0, x 0).
  Definition a_search (j : Z) (x : Z -> F) : Z * F :=
    fold_left (fun s r => let t := a_search_rank j x r in if bigger (snd t) (snd s) then t else s)
      (zrange 1 size) (a_search_rank j x 0).

  Lemma mt_bounds : forall r, 0 <= r < m -> 0 <= r / mb < mt.
  Proof.
    intros r Hr. unfold mt. pose proof (Z.div_pos r mb ltac:(lia) ltac:(lia)).
    pose proof (Z.div_le_mono r (m - 1) mb ltac:(lia) ltac:(lia)). lia.
  Qed.

  Lemma cand_range : forall j l d, 0 <= j < q -> 0 <= l < mt -> In d (cand j l) -> 0 <= d < m - j.
  Proof.
    intros j l d Hj Hl Hd. unfold cand in Hd. unfold q in Hj. destruct (Z.eqb_spec l 0) as [->|N].
    - apply in_zrange in Hd. unfold mv in Hd. lia.
    - apply in_map_iff in Hd. destruct Hd as (i & <- & Hi). apply in_zrange in Hi. unfold mv in Hi. nia.
  Qed.

  Lemma cand_all : forall j d, 0 <= j < q -> 0 < d < m - j -> exists l, 0 <= l < mt /\ In d (cand j l).
  Proof.
    intros j d Hj Hd. exists ((j + d) / mb). split; [apply mt_bounds; lia|]. unfold cand.
    pose proof (Z.div_mod (j + d) mb ltac:(lia)) as E. pose proof (Z.mod_pos_bound (j + d) mb ltac:(lia)) as B.
    destruct (Z.eqb_spec ((j + d) / mb) 0) as [Z0|N].
    - apply in_zrange. unfold mv. rewrite Z0 in E. lia.
    - apply in_map_iff. exists ((j + d) mod mb). split; [lia|]. apply in_zrange. unfold mv. lia.
  Qed.

  Lemma a_search_rank_best : forall j x r,
    a_search_rank j x r = best bigger x (flat_map (cand j) (rank_tiles r size mt)) (0, x 0).
  Proof. intros j x r. unfold a_search_rank, best. apply fold_flat_map. Qed.

  Lemma a_search_best : forall j x,
    a_search j x = best bigger x (map (fun r => fst (a_search_rank j x r)) (zrange 1 size))
                     (fst (a_search_rank j x 0), x (fst (a_search_rank j x 0))).
  Proof.
    intros j x. unfold a_search, best.
    assert (E : forall r, a_search_rank j x r = (fst (a_search_rank j x r), x (fst (a_search_rank j x r)))).
    { intros r. rewrite a_search_rank_best. destruct (best_in bigger x (flat_map (cand j) (rank_tiles r size mt)) 0) as [_ H].
      rewrite <- H. apply surjective_pairing. }
    rewrite (E 0) at 1. generalize (fst (a_search_rank j x 0), x (fst (a_search_rank j x 0))) as s.
    generalize (zrange 1 size) as rs. induction rs as [|r rs IH]; intros s; [reflexivity|].
    cbn [fold_left map]. cbv zeta in *. rewrite IH. f_equal. unfold better. rewrite (E r). cbn [fst snd]. reflexivity.
  Qed.

  Lemma rank_idx : forall j x r, 0 <= j < q -> 0 <= r < size -> 0 <= fst (a_search_rank j x r) < m - j.
  Proof.
    intros j x r Hj Hr. rewrite a_search_rank_best.
    destruct (best_in bigger x (flat_map (cand j) (rank_tiles r size mt)) 0) as [[H|H] _]; [unfold q in Hj; lia|].
    apply in_flat_map in H. destruct H as (l & Hl & H). apply in_rank_tiles in Hl; [|lia|lia].
    apply (cand_range j l); [assumption|lia|assumption].
  Qed.

  Lemma a_search_spec : forall j x, 0 <= j < q ->
    0 <= fst (a_search j x) < m - j /\ snd (a_search j x) = x (fst (a_search j x)) /\
    (order bigger -> forall d, 0 <= d < m - j -> bigger (x d) (snd (a_search j x)) = false).
  Proof.
    intros j x Hj. rewrite a_search_best.
    set (cs := map (fun r => fst (a_search_rank j x r)) (zrange 1 size)). set (d0 := fst (a_search_rank j x 0)).
    destruct (best_in bigger x cs d0) as [B1 B2].
    assert (RK : forall d, In d (d0 :: cs) <-> exists r, 0 <= r < size /\ d = fst (a_search_rank j x r)).
    { intros d. unfold cs, d0. split.
      - intros [<-|H]; [exists 0; split; [lia|reflexivity]|]. apply in_map_iff in H. destruct H as (r & <- & Hr).
        apply in_zrange in Hr. exists r. split; [lia|reflexivity].
      - intros (r & Hr & ->). destruct (Z.eq_dec r 0) as [->|N]; [left; reflexivity|right].
        apply (in_map (fun r => fst (a_search_rank j x r))). apply in_zrange. lia. }
    split; [|split; [assumption|]].
    - apply RK in B1. destruct B1 as (r & Hr & ->). apply rank_idx; assumption.
    - intros O d Hd.
      assert (C : exists r, 0 <= r < size /\ In d (0 :: flat_map (cand j) (rank_tiles r size mt))).
      { destruct (Z.eq_dec d 0) as [->|N]; [exists 0; split; [lia|left; reflexivity]|].
        destruct (cand_all j d Hj ltac:(lia)) as (l & Hl & Hc).
        apply (in_all_tiles size mt l Hsize) in Hl. unfold all_tiles in Hl. apply in_flat_map in Hl.
        destruct Hl as (r & Hr & Hl). apply in_zrange in Hr. exists r. split; [lia|right].
        apply in_flat_map. exists l. split; assumption. }
      destruct C as (r & Hr & Hc).
      pose proof (best_max bigger x O _ _ _ Hc) as M1. rewrite <- a_search_rank_best in M1.
      assert (M2 : bigger (x (fst (a_search_rank j x r))) (snd (best bigger x cs (d0, x d0))) = false).
      { apply best_max; [assumption|]. apply RK. exists r. split; [assumption|reflexivity]. }
      assert (E : snd (a_search_rank j x r) = x (fst (a_search_rank j x r))).
      { rewrite a_search_rank_best. apply best_in. }
      rewrite E in M1. destruct (bigger (x d) (snd (best bigger x cs (d0, x d0)))) eqn:E2; [|reflexivity].
      destruct (big_weak bigger O _ (x (fst (a_search_rank j x r))) _ E2) as [H|H]; congruence.
  Qed.

  (* the rows of tile l below row j *)
  Definition rowin (j l i : Z) : bool := (0 <=? l) && (j <? i) && (l * mb <=? i) && (i <? l * mb + mv l).

  Lemma rowin_spec : forall j l i, rowin j l i = true <-> 0 <= l /\ j < i /\ l * mb <= i < l * mb + mv l.
  Proof. intros. unfold rowin. rewrite !andb_true_iff, !Z.leb_le, !Z.ltb_lt. lia. Qed.

  Lemma rowin_one : forall j l l' i, rowin j l i = true -> rowin j l' i = true -> l = l'.
  Proof. intros j l l' i H H'. apply rowin_spec in H. apply rowin_spec in H'. unfold mv in *. nia. Qed.

  Lemma rowin_all : forall j i, 0 <= j -> 0 <= i < m -> existsb (fun l => rowin j l i) (all_tiles size mt) = (j <? i).
  Proof.
    intros j i Hj Hi. apply eq_true_iff_eq. rewrite existsb_exists, Z.ltb_lt. split.
    - intros (l & _ & H). apply rowin_spec in H. lia.
    - intros H. exists (i / mb). split; [apply in_all_tiles; [assumption|apply mt_bounds; assumption]|].
      apply rowin_spec. pose proof (Z.div_mod i mb ltac:(lia)) as E. pose proof (Z.mod_pos_bound i mb ltac:(lia)) as B.
      pose proof (Z.div_pos i mb ltac:(lia) ltac:(lia)). unfold mv. lia.
  Qed.

  Local Open Scope num_scope.

  (* scaling of the entry in column j and elimination in the columns j+1, ..., k+kb-1 *)
  Definition a_rowup (info k kb j : Z) (X : Z -> Z -> F) (x : Z -> F) (c : Z) : F :=
    let x1 := fun c => if (info =? 0)%Z && (c =? j)%Z then finv (X j j) * x c else x c in
    if (j <? c)%Z && (c <? k + kb)%Z then x1 c + - (x1 j * X j c) else x1 c.
  Definition a_update_tile (info k kb j : Z) (X : Z -> Z -> F) (l i c : Z) : F :=
    if rowin j l i then a_rowup info k kb j X (X i) c else X i c.
  Definition a_update (info k kb j : Z) (X : Z -> Z -> F) : Z -> Z -> F :=
    fold_left (a_update_tile info k kb j) (all_tiles size mt) X.

  Lemma a_update_eq : forall info k kb j X i c, (0 <= j < q)%Z -> (0 <= i < m)%Z ->
    a_update info k kb j X i c = if (j <? i)%Z then a_rowup info k kb j X (X i) c else X i c.
  Proof.
    intros info k kb j X i c Hj Hi. unfold a_update, a_update_tile.
    rewrite (fold_rows F (rowin j) (a_rowup info k kb j) (j + 1)%Z).
    - rewrite rowin_all by lia. reflexivity.
    - intros l r H. apply rowin_spec in H. lia.
    - apply rowin_one.
    - intros X1 X2 x x' c' H1 H2. unfold a_rowup. cbv zeta. rewrite !H1, !H2 by lia. reflexivity.
    - apply NoDup_all_tiles. assumption.
  Qed.

  (* elimination of the columns k, ..., k+kb-1 in the columns to their right *)
  Definition a_rowgemm (k kb : Z) (X : Z -> Z -> F) (x : Z -> F) (c : Z) : F :=
    if (k + kb <=? c)%Z && (c <? n)%Z then x c + - nsum (fun t => x t * X t c) k (k + kb)%Z else x c.
  Definition a_gemm_tile (k kb : Z) (X : Z -> Z -> F) (l i c : Z) : F :=
    if rowin (k + kb - 1)%Z l i then a_rowgemm k kb X (X i) c else X i c.
  Definition a_gemms (k kb : Z) (X : Z -> Z -> F) : Z -> Z -> F :=
    fold_left (a_gemm_tile k kb) (all_tiles size mt) X.

  Lemma a_gemms_eq : forall k kb X i c, (0 <= k)%Z -> (0 < kb)%Z -> (0 <= i < m)%Z ->
    a_gemms k kb X i c = if (k + kb <=? i)%Z then a_rowgemm k kb X (X i) c else X i c.
  Proof.
    intros k kb X i c Hk Hkb Hi. unfold a_gemms, a_gemm_tile.
    rewrite (fold_rows F (rowin (k + kb - 1)) (a_rowgemm k kb) (k + kb)%Z).
    - rewrite rowin_all by lia. destruct (Z.ltb_spec (k + kb - 1) i), (Z.leb_spec (k + kb) i); try lia; reflexivity.
    - intros l r H. apply rowin_spec in H. lia.
    - apply rowin_one.
    - intros X1 X2 x x' c' H1 H2. unfold a_rowgemm. destruct (_ && _); [|apply H2].
      rewrite H2. apply f_equal. apply f_equal. apply nsum_ext. intros t Ht. rewrite H1, H2 by lia. reflexivity.
    - apply NoDup_all_tiles. assumption.
  Qed.

  (* the state: the matrix, ipiv, and info *)
  Record ast := mkast { aX : Z -> Z -> F; aP : Z -> Z; aI : Z }.

  Definition a_pivot (k kb j : Z) (s : ast) : ast :=
    let mx := a_search j (fun d => aX s (j + d)%Z j) in
    let jp := (j + fst mx)%Z in
    let p1 := fun t => if (t =? j)%Z then (jp - k + 1)%Z else aP s t in
    if (aI s =? 0)%Z && neqb (snd mx) n0 then mkast (aX s) p1 (j + 1)
    else if (jp =? j)%Z then mkast (aX s) p1 (aI s)
    else mkast (a_swap j jp k kb (aX s)) p1 (aI s).

  Definition a_column (k kb : Z) (s : ast) (j : Z) : ast :=
    let s1 := a_pivot k kb j s in
    mkast (a_update (aI s1) k kb j (aX s1)) (aP s1) (aI s1).

  Definition a_shift (k kb : Z) (p : Z -> Z) (t : Z) : Z := if (k <=? t)%Z && (t <? k + kb)%Z then (p t + k)%Z else p t.

  Definition a_block (s : ast) (k : Z) : ast :=
    let kb := Z.min (q - k) ib in
    let s1 := fold_left (a_column k kb) (zrange k (k + kb)) s in
    let p2 := a_shift k kb (aP s1) in
    let X3 := fold_left (fun X t => a_swap t (p2 t - 1)%Z (k + kb)%Z (n - k - kb)%Z X) (zrange k (k + kb)) (aX s1) in
    mkast (a_gemms k kb (a_trsm k kb (k + kb) (n - k - kb) X3)) p2 (aI s1).

  Definition a_blocks : list Z := map (fun t => (t * ib)%Z) (zrange 0 ((q - 1) / ib + 1)).

  Definition a_left (p : Z -> Z) (X : Z -> Z -> F) (k : Z) : Z -> Z -> F :=
    fold_left (fun X t => a_swap t (p t - 1)%Z (k - ib)%Z ib X) (zrange k q) X.

  Definition a_getrf (X : Z -> Z -> F) (p : Z -> Z) : ast :=
    let s := fold_left a_block a_blocks (mkast X p 0) in
    mkast (fold_left (a_left (aP s)) (tl a_blocks) (aX s)) (aP s) (aI s).

  (* ---------------------------------------------------------------- *)
  (* pivots are legal, info stays in range                               *)

  Definition legal (lo hi : Z) (piv : Z -> Z) : Prop := forall t, (lo <= t < hi)%Z -> (t <= piv t < m)%Z.

  Lemma a_column_legal : forall k kb s j, (0 <= k <= j)%Z -> (j < q)%Z ->
    legal k j (fun t => aP s t + k - 1)%Z -> legal 0 k (fun t => aP s t - 1)%Z -> (0 <= aI s <= q)%Z ->
    let s' := a_column k kb s j in
    legal k (j + 1) (fun t => aP s' t + k - 1)%Z /\ legal 0 k (fun t => aP s' t - 1)%Z /\ (0 <= aI s' <= q)%Z /\
    (aI s <> 0%Z -> aI s' <> 0%Z).
  Proof.
    intros k kb s j Hk Hj L1 L2 HI. cbv zeta. unfold a_column, a_pivot. cbv zeta.
    destruct (a_search_spec j (fun d => aX s (j + d)%Z j) ltac:(lia)) as (B & _ & _).
    set (mx := a_search j (fun d => aX s (j + d)%Z j)) in *.
    assert (LL : forall t, (k <= t < j + 1)%Z ->
      (t <= (if (t =? j)%Z then (j + fst mx - k + 1)%Z else aP s t) + k - 1 < m)%Z).
    { intros t Ht. destruct (Z.eqb_spec t j) as [->|N]; [lia|]. apply L1. lia. }
    assert (LL0 : forall t, (0 <= t < k)%Z ->
      (t <= (if (t =? j)%Z then (j + fst mx - k + 1)%Z else aP s t) - 1 < m)%Z).
    { intros t Ht. destruct (Z.eqb_spec t j) as [->|N]; [lia|]. apply L2. lia. }
    destruct ((aI s =? 0)%Z && neqb (snd mx) n0).
    - cbn [aI aP aX]. repeat split; try assumption; try (apply LL; assumption); try (apply LL0; assumption); lia.
    - destruct (j + fst mx =? j)%Z; cbn [aI aP aX]; repeat split; try assumption; try (apply LL; assumption); try (apply LL0; assumption); lia.
  Qed.

  Lemma a_columns_legal : forall k kb s, (0 <= k)%Z -> (0 <= kb)%Z -> (k + kb <= q)%Z ->
    legal 0 k (fun t => aP s t - 1)%Z -> (0 <= aI s <= q)%Z ->
    let s' := fold_left (a_column k kb) (zrange k (k + kb)) s in
    legal k (k + kb) (fun t => aP s' t + k - 1)%Z /\ legal 0 k (fun t => aP s' t - 1)%Z /\ (0 <= aI s' <= q)%Z.
  Proof.
    intros k kb s Hk Hkb Hq L0 HI.
    assert (G : forall h, (k <= h <= k + kb)%Z -> let s' := fold_left (a_column k kb) (zrange k h) s in
      legal k h (fun t => aP s' t + k - 1)%Z /\ legal 0 k (fun t => aP s' t - 1)%Z /\ (0 <= aI s' <= q)%Z).
    { intros h. pattern h. apply (zrange_ind_hi _ k); clear h.
      - intros h Hh Hh2. assert (h = k) by lia. subst h. rewrite zrange_nil by lia. cbn.
        split; [intros t Ht; lia|]. split; assumption.
      - intros h Hh IH Hh2. destruct (IH ltac:(lia)) as (J1 & J2 & J3). clear IH. cbv zeta.
        rewrite zrange_snoc, fold_left_app by lia. cbn [fold_left].
        remember (fold_left (a_column k kb) (zrange k h) s) as s1 eqn:E1. clear E1.
        destruct (a_column_legal k kb s1 h ltac:(lia) ltac:(lia) J1 J2 J3) as (K1 & K2 & K3 & K4).
        split; [assumption|]. split; assumption. }
    apply G. lia.
  Qed.

  Lemma a_shift_legal : forall k kb p, legal k (k + kb) (fun t => p t + k - 1)%Z -> legal 0 k (fun t => p t - 1)%Z ->
    legal 0 (k + kb) (fun t => a_shift k kb p t - 1)%Z.
  Proof.
    intros k kb p J1 J2 t Ht. unfold a_shift. destruct (Z.leb_spec k t), (Z.ltb_spec t (k + kb)); cbn [andb]; try lia.
    - apply J1. lia.
    - apply J2. lia.
  Qed.

  Lemma a_block_legal : forall s k, (0 <= k < q)%Z -> legal 0 k (fun t => aP s t - 1)%Z -> (0 <= aI s <= q)%Z ->
    let s' := a_block s k in
    legal 0 (Z.min (k + ib) q) (fun t => aP s' t - 1)%Z /\ (0 <= aI s' <= q)%Z.
  Proof.
    intros s k Hk L0 HI. cbv zeta. unfold a_block. cbv zeta. replace (Z.min (k + ib) q) with (k + Z.min (q - k) ib)%Z by lia.
    destruct (a_columns_legal k (Z.min (q - k) ib) s ltac:(lia) ltac:(lia) ltac:(lia) L0 HI) as (J1 & J2 & J3).
    cbn [aP aI]. split; [|assumption]. apply a_shift_legal; assumption.
  Qed.

  (* ---------------------------------------------------------------- *)
  (* the factors                                                         *)

  Variable big : F -> F -> bool.
  Hypothesis HB : (forall a b, big a b = false) \/ (order bigger /\ big = bigger).
  Variable A : Z -> Z -> F.

  Lemma lu_ext : forall X X' piv piv' S s s' c c', lu_inv big m n A X piv S s c ->
    (forall i j, (0 <= i < m)%Z -> (0 <= j < n)%Z -> X i j = X' i j) ->
    (forall t, (0 <= t < S)%Z -> piv t = piv' t) ->
    (forall j, (0 <= j < n)%Z -> s j = s' j) -> (forall j, (0 <= j < n)%Z -> c j = c' j) ->
    lu_inv big m n A X' piv' S s' c'.
  Proof.
    intros X X' piv piv' S s s' c c' [I1 I2 I3 I4 I5 I6 I6n I7] EX EP ES EC.
    assert (PR : forall a i, (0 <= a)%Z -> perm piv a S i = perm piv' a S i).
    { intros a i Ha. apply perm_ext. intros t Ht. apply EP. lia. }
    assert (FR : forall i j, (0 <= i < m)%Z -> (0 <= j < n)%Z -> (0 <= perm piv (s j) S i < m)%Z).
    { intros i j Hi Hj. destruct (I3 j Hj). destruct (Z.le_gt_cases (s j) i).
      - pose proof (perm_high piv (s j) S m i) as P. destruct P; [intros; apply I5; lia|lia|lia].
      - rewrite perm_low; [lia| |lia]. intros t Ht. apply I5. lia. }
    assert (FE : forall i j, (0 <= i < m)%Z -> (0 <= j < n)%Z -> full X piv S s i j = full X' piv' S s' i j).
    { intros i j Hi Hj. unfold full. rewrite <- ES by assumption. rewrite <- PR by (apply I3; assumption).
      apply EX; auto. }
    assert (SM : (forall j, (0 <= j < n)%Z -> (Z.min m (c j) <= n)%Z)) by (intros j Hj; specialize (I4 j Hj); lia).
    constructor; try assumption.
    - intros j Hj. rewrite <- ES by assumption. auto.
    - intros j Hj. rewrite <- EC by assumption. auto.
    - intros t Ht. rewrite <- EP by assumption. auto.
    - intros i t Ht Hc Hi. rewrite <- EC in Hc by assumption. rewrite <- !FE by lia. auto.
    - intros t Ht Hc Htm. rewrite <- EC in Hc by assumption. rewrite <- FE by lia. auto.
    - intros i j Hi Hj. unfold lu_eq. rewrite <- PR by lia. rewrite (I7 i j Hi Hj). rewrite <- EC by assumption.
      rewrite <- FE by assumption. f_equal. apply nsum_ext. intros t Ht. specialize (I4 j Hj). rewrite <- !FE by lia. reflexivity.
  Qed.

  (* how far the columns are in the block k, ..., k+kb-1 before step j: interchanges and
     eliminations *)
  Definition blkend (c : Z) : Z := Z.min ((c / ib + 1) * ib) q.
  Definition col_s (k kb j c : Z) : Z := if (c <? k)%Z then blkend c else if (c <? k + kb)%Z then j else k.
  Definition col_c (k kb j c : Z) : Z :=
    if (c <? k)%Z then (c + 1)%Z else if (c <? k + kb)%Z then Z.min (c + 1) j else k.
  Definition pv (k : Z) (p : Z -> Z) (t : Z) : Z := if (t <? k)%Z then (p t - 1)%Z else (p t + k - 1)%Z.

  Lemma search_big : forall j x, (0 <= j < q)%Z -> forall d, (0 <= d < m - j)%Z -> big (x d) (snd (a_search j x)) = false.
  Proof.
    intros j x Hj d Hd. destruct HB as [H|[H ->]]; [apply H|]. destruct (a_search_spec j x Hj) as (_ & _ & S). apply S; assumption.
  Qed.

  Lemma a_column_inv : forall k kb s j, (0 <= k <= j)%Z -> (j < k + kb)%Z -> (k + kb <= q)%Z ->
    lu_inv big m n A (aX s) (pv k (aP s)) j (col_s k kb j) (col_c k kb j) -> aI s = 0%Z ->
    let s' := a_column k kb s j in
    aI s' = 0%Z ->
    lu_inv big m n A (aX s') (pv k (aP s')) (j + 1) (col_s k kb (j + 1)) (col_c k kb (j + 1)).
  Proof.
    intros k kb s j Hk Hj Hq I HI. cbv zeta. unfold a_column, a_pivot. cbv zeta.
    assert (Hjq : (0 <= j < q)%Z) by lia. assert (Hjm : (j < m /\ j < n)%Z) by (unfold q in Hjq; lia).
    destruct (a_search_spec j (fun d => aX s (j + d)%Z j) Hjq) as (B & SV & _).
    pose proof (search_big j (fun d => aX s (j + d)%Z j) Hjq) as SB.
    set (mx := a_search j (fun d => aX s (j + d)%Z j)) in *. cbv beta in SV, SB.
    rewrite HI. change (0 =? 0)%Z with true. cbn [andb].
    destruct (neqb (snd mx) n0) eqn:NZ; [cbn [aI]; lia|].
    assert (VN : snd mx <> n0) by (intros E; apply neqb_eq in E; congruence).
    set (jp := (j + fst mx)%Z) in *.
    set (p1 := fun t => if (t =? j)%Z then (jp - k + 1)%Z else aP s t) in *.
    set (X1 := fun i c => if (k <=? c)%Z && (c <? k + kb)%Z then aX s (transposed j jp i) c else aX s i c).
    assert (PVJ : pv k p1 j = jp).
    { unfold pv, p1. rewrite Z.eqb_refl. destruct (Z.ltb_spec j k); lia. }
    (* the new interchange *)
    assert (I1 : lu_inv big m n A (aX s) (pv k p1) (j + 1) (col_s k kb j) (col_c k kb j)).
    { apply lu_pivot; [|lia|rewrite PVJ; unfold jp; lia].
      apply (lu_ext (aX s) (aX s) (pv k (aP s)) (pv k p1) j (col_s k kb j) (col_s k kb j) (col_c k kb j) (col_c k kb j)); auto.
      intros t Ht. unfold pv, p1. destruct (Z.eqb_spec t j); [lia|reflexivity]. }
    (* carried out in the block *)
    assert (I2 : lu_inv big m n A X1 (pv k p1) (j + 1) (col_s k kb (j + 1)) (col_c k kb j)).
    { apply (lu_swap big m n A (aX s) X1 (pv k p1) (j + 1) (col_s k kb j) (col_s k kb (j + 1)) (col_c k kb j) I1).
      - intros c Hc. pose proof (lu_s _ _ _ _ _ _ _ _ _ I1 c Hc) as Q. unfold col_s in *.
        destruct (Z.ltb_spec c k); [lia|]. destruct (Z.ltb_spec c (k + kb)); lia.
      - intros i c Hi Hc. unfold X1, col_s. destruct (Z.leb_spec k c); destruct (Z.ltb_spec c k); try lia; cbn [andb].
        + destruct (Z.ltb_spec c (k + kb)).
          * rewrite perm_snoc by lia. rewrite PVJ. rewrite perm_same by lia. reflexivity.
          * rewrite perm_same by lia. reflexivity.
        + rewrite perm_same by lia. reflexivity. }
    assert (XE : forall Y : Z -> Z -> F, (forall i c, (0 <= i < m)%Z -> (0 <= c < n)%Z -> Y i c = X1 i c) ->
      lu_inv big m n A (a_update 0 k kb j Y) (pv k p1) (j + 1) (col_s k kb (j + 1)) (col_c k kb (j + 1))).
    { intros Y EY.
      set (X2 := fun i c => if (c =? j)%Z && (j <? i)%Z then finv (X1 j j) * X1 i c else X1 i c).
      assert (PIV : X1 j j = snd mx).
      { unfold X1. destruct (Z.leb_spec k j), (Z.ltb_spec j (k + kb)); try lia. cbn [andb]. unfold transposed.
        rewrite Z.eqb_refl. rewrite SV. reflexivity. }
      assert (I3 : lu_inv big m n A X2 (pv k p1) (j + 1) (col_s k kb (j + 1))
                     (fun c => if (c =? j)%Z then (j + 1)%Z else col_c k kb j c)).
      { apply (lu_scale big m n A X1 X2 (pv k p1) j (col_s k kb (j + 1)) (col_c k kb j) I2).
        - lia.
        - lia.
        - unfold col_s. destruct (Z.ltb_spec j k); [lia|]. destruct (Z.ltb_spec j (k + kb)); lia.
        - unfold col_c. destruct (Z.ltb_spec j k); [lia|]. destruct (Z.ltb_spec j (k + kb)); lia.
        - intros c Hc. left. unfold col_c. destruct (Z.ltb_spec c k); [lia|]. destruct (Z.ltb_spec c (k + kb)); lia.
        - rewrite PIV. assumption.
        - intros i Hi. rewrite PIV. unfold X1. destruct (Z.leb_spec k j), (Z.ltb_spec j (k + kb)); try lia. cbn [andb].
          pose proof (transposed_high j jp m i ltac:(unfold jp; lia) ltac:(lia)) as T.
          specialize (SB (transposed j jp i - j)%Z ltac:(lia)).
          replace (j + (transposed j jp i - j))%Z with (transposed j jp i) in SB by lia. assumption.
        - intros i c Hi Hc. reflexivity. }
      assert (I4 : lu_inv big m n A (a_update 0 k kb j Y) (pv k p1) (j + 1) (col_s k kb (j + 1))
                     (fun c => if (j <? c)%Z && (c <? k + kb)%Z then (j + 1)%Z
                               else if (c =? j)%Z then (j + 1)%Z else col_c k kb j c)).
      { apply (lu_elim big m n A X2 (a_update 0 k kb j Y) (pv k p1) (j + 1) (col_s k kb (j + 1))
                 (fun c => if (c =? j)%Z then (j + 1)%Z else col_c k kb j c)
                 (fun c => (j <? c)%Z && (c <? k + kb)%Z) j I3).
        - lia.
        - intros t Ht. assert (t = j) by lia. subst t. unfold col_s. destruct (Z.ltb_spec j k); [lia|].
          destruct (Z.ltb_spec j (k + kb)); lia.
        - intros c Hc D. apply andb_true_iff in D. rewrite !Z.ltb_lt in D. split; [lia|]. unfold col_s, col_c.
          destruct (Z.ltb_spec c k); [lia|]. destruct (Z.ltb_spec c (k + kb)); [|lia].
          destruct (Z.eqb_spec c j); [lia|]. lia.
        - intros i c Hi Hc D. rewrite a_update_eq by lia. destruct (Z.ltb_spec j i) as [L|L].
          + destruct D as [D|D]; [|lia]. unfold a_rowup. change (0 =? 0)%Z with true. cbn [andb]. cbv zeta. rewrite D.
            unfold X2. rewrite !EY by lia. destruct (c =? j)%Z; cbn [andb]; [|reflexivity].
            destruct (Z.ltb_spec j i); [reflexivity|lia].
          + unfold X2. rewrite EY by assumption. destruct (Z.ltb_spec j i); [lia|]. rewrite andb_false_r. reflexivity.
        - intros i c Hi Hc D. pose proof D as D'. apply andb_true_iff in D'. rewrite !Z.ltb_lt in D'.
          destruct (Z.eq_dec i j) as [->|N].
          + rewrite nsum_nil by lia. rewrite a_update_eq by lia. destruct (Z.ltb_spec j j); [lia|]. unfold X2.
            destruct (Z.eqb_spec c j); [lia|]. cbn [andb]. rewrite EY by lia. ring.
          + replace (Z.min i (j + 1)) with (j + 1)%Z by lia. rewrite nsum_one. rewrite !a_update_eq by lia.
            destruct (Z.ltb_spec j j); [lia|]. destruct (Z.ltb_spec j i); [|lia]. unfold a_rowup.
            change (0 =? 0)%Z with true. cbn [andb]. cbv zeta. rewrite D, Z.eqb_refl.
            unfold X2. destruct (Z.eqb_spec c j); [lia|]. cbn [andb]. rewrite Z.eqb_refl.
            destruct (Z.ltb_spec j i); [|lia]. cbn [andb]. rewrite !EY by lia. ring. }
      apply (lu_ext _ _ _ _ _ _ _ _ _ I4); auto.
      intros c Hc. unfold col_c. destruct (Z.ltb_spec j c), (Z.ltb_spec c (k + kb)), (Z.eqb_spec c j), (Z.ltb_spec c k); cbn [andb]; lia. }
    destruct (Z.eqb_spec jp j) as [EJ|NJ]; cbn [aI aX aP]; intros _.
    - apply XE. intros i c Hi Hc. unfold X1. rewrite EJ, transposed_same. destruct (_ && _); reflexivity.
    - apply XE. intros i c Hi Hc. reflexivity.
  Qed.

  (* what a failure means *)
  Definition fails (code : Z) : Prop :=
    order bigger -> (forall x, x <> n0 -> bigger x n0 = true) -> dep0 m A (code - 1).

  Definition lu_or_fail (s : ast) (piv : Z -> Z) S (sc cc : Z -> Z) : Prop :=
    (aI s = 0%Z -> lu_inv big m n A (aX s) piv S sc cc) /\ (aI s <> 0%Z -> fails (aI s)).

  Lemma a_column_fails : forall k kb s j, (0 <= k <= j)%Z -> (j < k + kb)%Z -> (k + kb <= q)%Z ->
    lu_inv big m n A (aX s) (pv k (aP s)) j (col_s k kb j) (col_c k kb j) -> aI s = 0%Z ->
    aI (a_column k kb s j) <> 0%Z -> fails (aI (a_column k kb s j)).
  Proof.
    intros k kb s j Hk Hj Hq I HI. unfold a_column, a_pivot. cbv zeta.
    assert (Hjq : (0 <= j < q)%Z) by lia. assert (Hjm : (j < m /\ j < n)%Z) by (unfold q in Hjq; lia).
    destruct (a_search_spec j (fun d => aX s (j + d)%Z j) Hjq) as (B & SV & SB).
    set (mx := a_search j (fun d => aX s (j + d)%Z j)) in *. cbv beta in SV, SB.
    rewrite HI. change (0 =? 0)%Z with true. cbn [andb].
    destruct (neqb (snd mx) n0) eqn:NZ; [|destruct (j + fst mx =? j)%Z; cbn [aI]; intros H; contradiction].
    cbn [aI]. intros _ O Z0. replace (j + 1 - 1)%Z with j by lia. apply neqb_eq in NZ.
    apply (lu_dep big m n A (aX s) (pv k (aP s)) j (col_s k kb j) (col_c k kb j) j j (fun _ => n1) I); try lia; try reflexivity.
    - intros t Ht. unfold col_c. destruct (Z.ltb_spec t k); [reflexivity|]. destruct (Z.ltb_spec t (k + kb)); lia.
    - intros c Hc. assert (c = j) by lia. subst c. unfold col_c. destruct (Z.ltb_spec j k); [lia|]. destruct (Z.ltb_spec j (k + kb)); lia.
    - intros i Hi. rewrite nsum_one. unfold full.
      assert (E : col_s k kb j j = j).
      { unfold col_s. destruct (Z.ltb_spec j k); [lia|]. destruct (Z.ltb_spec j (k + kb)); lia. }
      rewrite E, perm_same by lia. destruct (neqb (aX s i j) n0) eqn:N1.
      + apply neqb_eq in N1. rewrite N1. ring.
      + exfalso. specialize (SB O (i - j)%Z ltac:(lia)). replace (j + (i - j))%Z with i in SB by lia. rewrite NZ in SB.
        rewrite Z0 in SB; [discriminate|]. intros EQ. apply neqb_eq in EQ. congruence.
  Qed.

  Lemma a_column_keeps : forall k kb s j, aI s <> 0%Z -> aI (a_column k kb s j) = aI s.
  Proof.
    intros k kb s j H. unfold a_column, a_pivot. cbv zeta. destruct (Z.eqb_spec (aI s) 0); [contradiction|]. cbn [andb].
    destruct (_ =? j)%Z; reflexivity.
  Qed.

  Lemma a_columns : forall k kb s, (0 <= k)%Z -> (0 <= kb)%Z -> (k + kb <= q)%Z ->
    legal 0 k (fun t => aP s t - 1)%Z -> (0 <= aI s <= q)%Z ->
    lu_or_fail s (fun t => aP s t - 1)%Z k (fun c => if (c <? k)%Z then blkend c else k) (fun c => if (c <? k)%Z then (c + 1)%Z else k) ->
    let s' := fold_left (a_column k kb) (zrange k (k + kb)) s in
    legal k (k + kb) (fun t => aP s' t + k - 1)%Z /\ legal 0 k (fun t => aP s' t - 1)%Z /\ (0 <= aI s' <= q)%Z /\
    (aI s <> 0%Z -> aI s' <> 0%Z) /\
    lu_or_fail s' (pv k (aP s')) (k + kb) (col_s k kb (k + kb)) (col_c k kb (k + kb)).
  Proof.
    intros k kb s Hk Hkb Hq L0 HI I.
    assert (G : forall h, (k <= h <= k + kb)%Z -> let s' := fold_left (a_column k kb) (zrange k h) s in
      legal k h (fun t => aP s' t + k - 1)%Z /\ legal 0 k (fun t => aP s' t - 1)%Z /\ (0 <= aI s' <= q)%Z /\
      (aI s <> 0%Z -> aI s' <> 0%Z) /\ lu_or_fail s' (pv k (aP s')) h (col_s k kb h) (col_c k kb h)).
    { intros h. pattern h. apply (zrange_ind_hi _ k); clear h.
      - intros h Hh Hh2. assert (h = k) by lia. subst h. rewrite zrange_nil by lia. cbn.
        split; [intros t Ht; lia|]. split; [assumption|]. split; [assumption|]. split; [auto|].
        { destruct I as [I IF]. split; [|assumption]. intros H0. specialize (I H0).
          apply (lu_ext _ _ _ _ _ _ _ _ _ I); auto.
          * intros t Ht. unfold pv. destruct (Z.ltb_spec t k); lia.
          * intros c Hc. unfold col_s. destruct (Z.ltb_spec c k); [reflexivity|]. destruct (c <? k + kb)%Z; reflexivity.
          * intros c Hc. unfold col_c. destruct (Z.ltb_spec c k); [reflexivity|]. destruct (Z.ltb_spec c (k + kb)); lia. }
      - intros h Hh IH Hh2. destruct (IH ltac:(lia)) as (J1 & J2 & J3 & J4 & J5). clear IH. cbv zeta.
        rewrite zrange_snoc, fold_left_app by lia. cbn [fold_left].
        remember (fold_left (a_column k kb) (zrange k h) s) as s1 eqn:E1. clear E1.
        destruct (a_column_legal k kb s1 h ltac:(lia) ltac:(lia) J1 J2 J3) as (K1 & K2 & K3 & K4).
        split; [assumption|]. split; [assumption|]. split; [assumption|]. split; [auto|].
        destruct J5 as [J5 J6]. split.
        + intros H0. apply a_column_inv; try lia.
          apply J5. destruct (Z.eq_dec (aI s1) 0); [assumption|]. exfalso. apply K4; assumption.
        + destruct (Z.eq_dec (aI s1) 0) as [H0|H0].
          * apply a_column_fails; try lia. auto.
          * rewrite a_column_keeps by assumption. intros _. auto. }
    apply G. lia.
  Qed.

  Lemma a_block_inv : forall s k, (0 <= k < q)%Z -> (k mod ib = 0)%Z ->
    legal 0 k (fun t => aP s t - 1)%Z -> (0 <= aI s <= q)%Z ->
    lu_or_fail s (fun t => aP s t - 1)%Z k (fun c => if (c <? k)%Z then blkend c else k) (fun c => if (c <? k)%Z then (c + 1)%Z else k) ->
    let s' := a_block s k in let e := Z.min (k + ib) q in
    legal 0 e (fun t => aP s' t - 1)%Z /\ (0 <= aI s' <= q)%Z /\ (aI s <> 0%Z -> aI s' <> 0%Z) /\
    lu_or_fail s' (fun t => aP s' t - 1)%Z e (fun c => if (c <? e)%Z then blkend c else e) (fun c => if (c <? e)%Z then (c + 1)%Z else e).
  Proof.
    intros s k Hk Hm0 L0 HI I. cbv zeta. unfold a_block. cbv zeta. replace (Z.min (k + ib) q) with (k + Z.min (q - k) ib)%Z by lia.
    assert (KB : (0 < Z.min (q - k) ib)%Z) by lia. assert (KQ : (k + Z.min (q - k) ib <= q)%Z) by lia.
    assert (BE : forall c, (k <= c < k + Z.min (q - k) ib)%Z -> blkend c = (k + Z.min (q - k) ib)%Z).
    { intros c Hc. unfold blkend. pose proof (Z.div_mod k ib ltac:(lia)) as E. rewrite Hm0 in E.
      assert (c / ib = k / ib)%Z by (apply div_eq with (c - k)%Z; nia). rewrite H. lia. }
    remember (Z.min (q - k) ib) as kb eqn:EK. clear EK.
    destruct (a_columns k kb s ltac:(lia) ltac:(lia) KQ L0 HI I) as (J1 & J2 & J3 & J4 & J5).
    remember (fold_left (a_column k kb) (zrange k (k + kb)) s) as s1 eqn:E1. clear E1.
    set (p2 := a_shift k kb (aP s1)). cbn [aI aP aX].
    assert (PE : forall t, (0 <= t < k + kb)%Z -> (p2 t - 1 = pv k (aP s1) t)%Z).
    { intros t Ht. unfold p2, a_shift, pv. destruct (Z.ltb_spec t k), (Z.leb_spec k t), (Z.ltb_spec t (k + kb)); cbn [andb]; lia. }
    assert (LG : legal 0 (k + kb) (fun t => p2 t - 1)%Z).
    { intros t Ht. cbv beta. rewrite PE by assumption. unfold pv. destruct (Z.ltb_spec t k); [apply J2|apply J1]; lia. }
    split; [assumption|]. split; [assumption|]. split; [assumption|].
    destruct J5 as [J5 J6]. split; [|exact J6].
    intros H0. cbn [aI] in H0. specialize (J5 H0). cbn [aX].
    set (X3 := fold_left (fun X t => a_swap t (p2 t - 1)%Z (k + kb)%Z (n - k - kb)%Z X) (zrange k (k + kb)) (aX s1)).
    set (X4 := a_trsm k kb (k + kb) (n - k - kb) X3).
    (* the interchanges in the columns to the right *)
    assert (K3 : lu_inv big m n A X3 (pv k (aP s1)) (k + kb) (fun c => if (c <? k)%Z then blkend c else (k + kb)%Z) (col_c k kb (k + kb))).
    { apply (lu_swap big m n A (aX s1) X3 (pv k (aP s1)) (k + kb) (col_s k kb (k + kb)) (fun c => if (c <? k)%Z then blkend c else (k + kb)%Z)
               (col_c k kb (k + kb)) J5).
      - intros c Hc. pose proof (lu_s _ _ _ _ _ _ _ _ _ J5 c Hc) as Q. unfold col_s in *.
        destruct (Z.ltb_spec c k); [lia|]. destruct (Z.ltb_spec c (k + kb)); lia.
      - intros i c Hi Hc. unfold X3. rewrite (a_swap_fold F (fun t => p2 t - 1)%Z). unfold col_s.
        replace (k + kb + (n - k - kb))%Z with n by lia.
        destruct (Z.leb_spec (k + kb) c), (Z.ltb_spec c n), (Z.ltb_spec c k); cbn [andb]; try lia.
        + destruct (Z.ltb_spec c (k + kb)); [lia|]. rewrite (perm_ext (fun t => p2 t - 1)%Z (pv k (aP s1))); [reflexivity|].
          intros t Ht. apply PE. lia.
        + rewrite perm_same by lia. reflexivity.
        + destruct (Z.ltb_spec c (k + kb)); [|lia]. rewrite perm_same by lia. reflexivity. }
    (* the elimination *)
    assert (K4 : lu_inv big m n A (a_gemms k kb X4) (pv k (aP s1)) (k + kb) (fun c => if (c <? k)%Z then blkend c else (k + kb)%Z)
                   (fun c => if (k + kb <=? c)%Z then (k + kb)%Z else col_c k kb (k + kb) c)).
    { assert (X4O : forall i c, (c < k + kb \/ i < k \/ k + kb <= i)%Z -> X4 i c = X3 i c).
      { intros i c Hc. unfold X4, a_trsm. destruct (ablk_spec k kb (k + kb) (n - k - kb) i c); [lia|reflexivity]. }
      apply (lu_elim big m n A X3 (a_gemms k kb X4) (pv k (aP s1)) (k + kb) (fun c => if (c <? k)%Z then blkend c else (k + kb)%Z)
               (col_c k kb (k + kb)) (fun c => (k + kb <=? c)%Z) k K3).
      - lia.
      - intros t Ht. destruct (Z.ltb_spec t k); lia.
      - intros c Hc D. apply Z.leb_le in D. split; [lia|]. destruct (Z.ltb_spec c k); [lia|]. split; [reflexivity|].
        unfold col_c. destruct (Z.ltb_spec c k); [lia|]. destruct (Z.ltb_spec c (k + kb)); [lia|reflexivity].
      - intros i c Hi Hc D. rewrite a_gemms_eq by lia. unfold a_rowgemm. destruct D as [D|D].
        + rewrite D. cbn [andb]. apply Z.leb_gt in D. destruct (k + kb <=? i)%Z; apply X4O; lia.
        + destruct (Z.leb_spec (k + kb) i); [lia|]. apply X4O. lia.
      - intros i c Hi Hc D. pose proof D as D'. apply Z.leb_le in D'. rewrite a_gemms_eq by lia.
        rewrite (nsum_ext F _ (fun t => X3 i t * X4 t c)).
        2:{ intros t Ht. rewrite a_gemms_eq by lia. destruct (Z.leb_spec (k + kb) t); [lia|reflexivity]. }
        destruct (Z.leb_spec (k + kb) i).
        + replace (Z.min i (k + kb)) with (k + kb)%Z by lia. unfold a_rowgemm. rewrite D.
          destruct (Z.ltb_spec c n); [|lia]. cbn [andb]. rewrite (X4O i c) by lia.
          rewrite (nsum_ext F (fun t => X4 i t * X4 t c) (fun t => X3 i t * X4 t c)); [ring|].
          intros t Ht. rewrite (X4O i t) by lia. reflexivity.
        + replace (Z.min i (k + kb)) with i by lia. apply a_trsm_spec; lia. }
    apply (lu_ext _ _ _ _ _ _ _ _ _ K4); auto.
    - intros t Ht. symmetry. apply PE. assumption.
    - intros c Hc. destruct (Z.ltb_spec c k), (Z.ltb_spec c (k + kb)); try lia. symmetry. apply BE. lia.
    - intros c Hc. unfold col_c. destruct (Z.ltb_spec c (k + kb)), (Z.leb_spec (k + kb) c), (Z.ltb_spec c k); lia.
  Qed.

  Lemma a_blocks_inv : forall X p, (forall i j, (0 <= i < m)%Z -> (0 <= j < n)%Z -> X i j = A i j) ->
    let s := fold_left a_block a_blocks (mkast X p 0) in
    legal 0 q (fun t => aP s t - 1)%Z /\ (0 <= aI s <= q)%Z /\
    lu_or_fail s (fun t => aP s t - 1)%Z q (fun c => if (c <? q)%Z then blkend c else q) (fun c => if (c <? q)%Z then (c + 1)%Z else q).
  Proof.
    intros X p EX. unfold a_blocks.
    assert (Q0 : (0 < q)%Z) by (unfold q; lia).
    assert (TB : forall t, (t < (q - 1) / ib + 1)%Z -> (t * ib < q)%Z).
    { intros t Ht. pose proof (Z.mul_div_le (q - 1) ib Hib). nia. }
    assert (G : forall h, (0 <= h <= (q - 1) / ib + 1)%Z ->
      let s := fold_left a_block (map (fun t => (t * ib)%Z) (zrange 0 h)) (mkast X p 0) in
      let e := Z.min (h * ib) q in
      legal 0 e (fun t => aP s t - 1)%Z /\ (0 <= aI s <= q)%Z /\
      lu_or_fail s (fun t => aP s t - 1)%Z e (fun c => if (c <? e)%Z then blkend c else e) (fun c => if (c <? e)%Z then (c + 1)%Z else e)).
    { intros h. pattern h. apply (zrange_ind_hi _ 0); clear h.
      - intros h Hh Hh2. assert (h = 0)%Z by lia. subst h. rewrite zrange_nil by lia. cbn [map fold_left]. cbv zeta.
        replace (Z.min (0 * ib) q) with 0%Z by lia. cbn [aI aP].
        split; [intros t Ht; lia|]. split; [lia|]. split; [|cbn [aI]; intros H; contradiction]. intros _. cbn [aX].
        apply (lu_ext _ _ _ _ _ _ _ _ _ (lu_start big m n A ltac:(lia))).
        + intros i j Hi Hj. symmetry. auto.
        + intros t Ht. lia.
        + intros j Hj. destruct (Z.ltb_spec j 0); lia.
        + intros j Hj. destruct (Z.ltb_spec j 0); lia.
      - intros h Hh IH Hh2. destruct (IH ltac:(lia)) as (J1 & J2 & J3). clear IH. cbv zeta.
        rewrite zrange_snoc by lia. rewrite map_app, fold_left_app. cbn [map fold_left].
        remember (fold_left a_block (map (fun t => (t * ib)%Z) (zrange 0 h)) (mkast X p 0)) as s1 eqn:E1. clear E1.
        pose proof (TB h ltac:(lia)) as TBh.
        replace (Z.min (h * ib) q) with (h * ib)%Z in J1, J3 by lia.
        assert (JX : lu_or_fail s1 (fun t => aP s1 t - 1)%Z (h * ib) (fun c => if (c <? h * ib)%Z then blkend c else (h * ib)%Z)
                       (fun c => if (c <? h * ib)%Z then (c + 1)%Z else (h * ib)%Z)).
        { replace (Z.min (h * ib) q) with (h * ib)%Z in J3 by lia. exact J3. }
        destruct (a_block_inv s1 (h * ib)%Z ltac:(nia) ltac:(apply Z.mod_mul; lia) J1 J2 JX) as (K1 & K2 & _ & K4).
        replace (h * ib + ib)%Z with ((h + 1) * ib)%Z in K1, K4 by lia.
        split; [assumption|]. split; assumption. }
    pose proof (Z.div_pos (q - 1) ib ltac:(lia) Hib) as P0.
    specialize (G ((q - 1) / ib + 1)%Z ltac:(lia)). cbv zeta in G.
    assert (E : Z.min (((q - 1) / ib + 1) * ib) q = q).
    { pose proof (Z.div_mod (q - 1) ib ltac:(lia)). pose proof (Z.mod_pos_bound (q - 1) ib Hib). nia. }
    rewrite E in G. exact G.
  Qed.

  Lemma a_lefts : forall p X i c, (0 <= c)%Z ->
    fold_left (a_left p) (tl a_blocks) X i c = X (perm (fun t => p t - 1)%Z (blkend c) q i) c.
  Proof.
    intros p X i c Hc. unfold a_blocks. assert (Q0 : (0 < q)%Z) by (unfold q; lia).
    pose proof (Z.div_pos (q - 1) ib ltac:(lia) Hib) as P0.
    rewrite zrange_cons by lia. cbn [map tl].
    assert (TB : forall t, (t < (q - 1) / ib + 1)%Z -> (t * ib < q)%Z).
    { intros t Ht. pose proof (Z.mul_div_le (q - 1) ib Hib). nia. }
    assert (G : forall h, (1 <= h <= (q - 1) / ib + 1)%Z -> forall i c, (0 <= c)%Z ->
      fold_left (a_left p) (map (fun t => (t * ib)%Z) (zrange 1 h)) X i c =
      if (c / ib + 1 <? h)%Z then X (perm (fun t => p t - 1)%Z ((c / ib + 1) * ib) q i) c else X i c).
    { intros h. pattern h. apply (zrange_ind_hi _ 1); clear h i c Hc.
      - intros h Hh Hh2 i c Hc. rewrite zrange_nil by lia. cbn. pose proof (Z.div_pos c ib ltac:(lia) Hib).
        destruct (Z.ltb_spec (c / ib + 1) h); [lia|reflexivity].
      - intros h Hh IH Hh2 i c Hc. rewrite zrange_snoc by lia. rewrite map_app, fold_left_app. cbn [map fold_left].
        unfold a_left at 1. rewrite (a_swap_fold F (fun t => p t - 1)%Z). rewrite !IH by lia.
        pose proof (Z.div_mod c ib ltac:(lia)) as D. pose proof (Z.mod_pos_bound c ib Hib) as B.
        destruct (Z.leb_spec (h * ib - ib) c), (Z.ltb_spec c (h * ib - ib + ib)); cbn [andb].
        + assert (c / ib + 1 = h)%Z by nia. destruct (Z.ltb_spec (c / ib + 1) h), (Z.ltb_spec (c / ib + 1) (h + 1)); try lia.
          rewrite H1. reflexivity.
        + destruct (Z.ltb_spec (c / ib + 1) h), (Z.ltb_spec (c / ib + 1) (h + 1)); try reflexivity; nia.
        + destruct (Z.ltb_spec (c / ib + 1) h), (Z.ltb_spec (c / ib + 1) (h + 1)); try reflexivity; nia.
        + lia. }
    rewrite G by lia. unfold blkend. destruct (Z.ltb_spec (c / ib + 1) ((q - 1) / ib + 1)) as [L|L].
    - specialize (TB _ L). rewrite Z.min_l by lia. reflexivity.
    - pose proof (Z.div_mod (q - 1) ib ltac:(lia)). pose proof (Z.mod_pos_bound (q - 1) ib Hib).
      rewrite Z.min_r by nia. rewrite perm_same by lia. reflexivity.
  Qed.

  Lemma a_getrf_lu : forall X p, (forall i j, (0 <= i < m)%Z -> (0 <= j < n)%Z -> X i j = A i j) ->
    let s := a_getrf X p in
    legal 0 q (fun t => aP s t - 1)%Z /\ (0 <= aI s <= q)%Z /\
    lu_or_fail s (fun t => aP s t - 1)%Z q (fun _ => q) (fun c => Z.min (c + 1) q).
  Proof.
    intros X p EX. destruct (a_blocks_inv X p EX) as (J1 & J2 & J3). cbv zeta. unfold a_getrf.
    remember (fold_left a_block a_blocks (mkast X p 0)) as s1 eqn:E1. clear E1. cbv zeta. cbn [aP aI].
    split; [assumption|]. split; [assumption|]. destruct J3 as [J3 J4]. split; [|exact J4].
    intros H0. cbn [aI] in H0. specialize (J3 H0). cbn [aX].
    apply (lu_swap big m n A (aX s1) _ (fun t => aP s1 t - 1)%Z q (fun c => if (c <? q)%Z then blkend c else q) (fun _ => q) (fun c => Z.min (c + 1) q)).
    - apply (lu_ext _ _ _ _ _ _ _ _ _ J3); auto. intros c Hc. destruct (Z.ltb_spec c q); lia.
    - intros c Hc. unfold blkend. destruct (c <? q)%Z; lia.
    - intros i c Hi Hc. rewrite a_lefts by lia. destruct (Z.ltb_spec c q) as [L|L]; [reflexivity|].
      rewrite (perm_same _ q q) by lia. unfold blkend. rewrite Z.min_r; [rewrite perm_same by lia; reflexivity|].
      pose proof (Z.div_mod c ib ltac:(lia)). pose proof (Z.mod_pos_bound c ib Hib). nia.
  Qed.
End Abs.
