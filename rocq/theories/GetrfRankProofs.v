(* The threads of the panel between two barriers: they do not disturb each other. *)
From Coq Require Import ZArith List Bool Lia.
From Verif Require Import Base NumModel NumProofs FieldModel TaskModel TaskSpec TaskProofs DescModel DescSpec DescProofs
  MatModel MatSpec MatProofs RegionProofs SwpSpec SwpProofs LuProofs GridProofs PanelProofs DescDriverModel SwpModel SwpDriverProofs GemmProofs GetrfModel GetrfSpec GetrfAbsProofs GetrfPanelProofs GetrfProofs.
Import ListNotations.
Open Scope Z_scope.

Section Threads.
  Context {F : fields}.
  Variables (b : Z) (W : desc) (size : Z).
  Hypothesis G : gen_ok W.
  Hypothesis Hm : 0 < d_m W.
  Hypothesis Hn : 0 < d_n W.
  Hypothesis Hnb : d_n W <= d_nb W.
  Hypothesis Hmb : d_n W <= d_mb W.
  Hypothesis Hsize : 0 < size.
  Let m := d_m W.
  Let n := d_n W.
  Let mb := d_mb W.
  Let q := Z.min m n.
  Let L (i j : Z) : loc := (b, elem_off W i j).

  (* a step that treats the rows of tile l below row p *)
  Variable p : Z.
  Hypothesis Hp : 0 <= p.
  Variable op : mem F -> Z -> mem F.
  Variable f : (Z -> Z -> F) -> (Z -> F) -> Z -> F.
  Hypothesis Hop : forall l, 0 <= l < d_mt W ->
    eff m n L (fun M => op M l) (fun X i c => if rowin m mb p l i then f X (X i) c else X i c).
  Hypothesis Hf : forall X X' x x' c, (forall i c, i < p + 1 -> X i c = X' i c) -> (forall c, x c = x' c) -> f X x c = f X' x' c.

  Definition thread (r : Z) : ktask (cell F) :=
    mkktask [] (on_nums (fun M => fold_left op (rank_tiles r size (d_mt W)) M)) (thread_reads b W r size p) (thread_writes b W r size p).

  Definition a_thread (r : Z) (X : Z -> Z -> F) (i c : Z) : F :=
    if existsb (fun l => rowin m mb p l i) (rank_tiles r size (d_mt W)) then f X (X i) c else X i c.

  Lemma thread_eff : forall r, 0 <= r < size -> eff m n L (fun M => fold_left op (rank_tiles r size (d_mt W)) M) (a_thread r).
  Proof.
    intros r Hr. apply (eff_ext m n L _ (fun X => fold_left (fun X l i c => if rowin m mb p l i then f X (X i) c else X i c) (rank_tiles r size (d_mt W)) X)).
    - apply (eff_fold m n L op (fun X l i c => if rowin m mb p l i then f X (X i) c else X i c)).
      intros l Hl. apply in_rank_tiles in Hl; [|assumption|assumption]. apply Hop. lia.
    - intros X i c Hi Hc. unfold a_thread. apply (fold_rows F (rowin m mb p) f (p + 1)).
      + intros l i' H. apply (rowin_spec m n) in H. lia.
      + apply (rowin_one m n mb); unfold m, n, mb; lia.
      + assumption.
      + apply NoDup_rank_tiles. assumption.
  Qed.

  Lemma mine : forall r i, 0 <= r < size -> 0 <= i < m ->
    existsb (fun l => rowin m mb p l i) (rank_tiles r size (d_mt W)) = true <-> rank_row W r size i /\ p < i.
  Proof.
    intros r i Hr Hi. rewrite existsb_exists. unfold rank_row. fold mb. split.
    - intros (l & Hl & H). apply (rowin_spec m n) in H.
      assert (E : i / mb = l) by (symmetry; apply (Z.div_unique i mb l (i - l * mb)); lia). rewrite E. split; [assumption|lia].
    - intros [H1 H2]. exists (i / mb). split; [assumption|]. apply (rowin_spec m n).
      assert (0 < mb) by (unfold mb, n in *; lia).
      pose proof (Z.div_mod i mb ltac:(lia)). pose proof (Z.mod_pos_bound i mb ltac:(lia)).
      pose proof (Z.div_pos i mb ltac:(lia) ltac:(lia)). lia.
  Qed.

  Definition entries (M : mem F) (i c : Z) : F :=
    if (0 <=? i) && (i <? m) && (0 <=? c) && (c <? n) then M (L i c) else n0.
  Lemma entries_repr : forall M, repr m n L M (entries M).
  Proof.
    intros M i c Hi Hc. unfold entries.
    destruct (Z.leb_spec 0 i), (Z.ltb_spec i m), (Z.leb_spec 0 c), (Z.ltb_spec c n); cbn [andb]; try lia. reflexivity.
  Qed.

  Lemma thread_kgood : forall r, 0 <= r < size -> kgood (thread r).
  Proof.
    intros r Hr. assert (FN : forall P : Z -> Prop, (forall i, 0 <= i < m -> P i \/ ~ P i) ->
      finite_set (fun l => exists i c, 0 <= i < m /\ 0 <= c < n /\ P i /\ l = L i c)).
    { intros P HP. assert (HF : exists ls, forall i, In i ls <-> 0 <= i < m /\ P i).
      { clear -HP. revert HP. generalize m as k. intros k HP.
        destruct (Z_le_gt_dec k 0) as [|GT]; [exists []; intros; cbn; split; [tauto|lia]|].
        assert (G : forall t, 0 <= t -> t <= k -> exists ls, forall i, In i ls <-> 0 <= i < t /\ P i).
        { intros t H0. pattern t. apply natlike_ind; [| |assumption]; clear t H0.
          - intros _. exists []. intros; cbn; split; [tauto|lia].
          - intros t Ht IH Hk. destruct (IH ltac:(lia)) as (ls & E). destruct (HP t ltac:(lia)) as [Y|N].
            + exists (t :: ls). intros i. cbn. rewrite E. split; [intros [<-|[? ?]]; split; auto; lia|].
              intros [? ?]. destruct (Z.eq_dec t i); [left; assumption|right; split; [lia|assumption]].
            + exists ls. intros i. rewrite E. split; [intros [? ?]; split; auto; lia|]. intros [? ?].
              split; [|assumption]. destruct (Z.eq_dec i t); [subst; contradiction|lia]. }
        apply G; lia. }
      destruct HF as (ls & E). exists (flat_map (fun i => map (fun c => L i c) (zrange 0 n)) ls). intros l. rewrite in_flat_map. split.
      - intros (i & Hi & H). apply in_map_iff in H. destruct H as (c & <- & Hc). apply in_zrange in Hc. apply E in Hi.
        exists i, c. repeat split; try tauto; lia.
      - intros (i & c & Hi & Hc & HPi & ->). exists i. split; [apply E; auto|]. apply in_map_iff. exists c. split; [reflexivity|].
        apply in_zrange. lia. }
    assert (DR : forall i, rank_row W r size i \/ ~ rank_row W r size i).
    { intros i. unfold rank_row. destruct (in_dec Z.eq_dec (i / d_mb W) (rank_tiles r size (d_mt W))); auto. }
    constructor.
    - split.
      + intros M l NW. cbn [k_fun thread]. unfold on_nums.
        destruct (thread_eff r Hr (nums M) (entries (nums M)) (entries_repr _)) as [E1 E2].
        assert (X : fold_left op (rank_tiles r size (d_mt W)) (nums M) l = fst (M l)).
        { destruct (finite_dec _ l (FN (fun _ => True) ltac:(auto))) as [(i & c & Hi & Hc & _ & ->)|NP].
          - rewrite E1 by assumption. unfold a_thread.
            destruct (existsb (fun l => rowin m mb p l i) (rank_tiles r size (d_mt W))) eqn:EX.
            + exfalso. apply mine in EX; try assumption. apply NW. exists i, c. auto.
            + symmetry. apply (entries_repr (nums M)); assumption.
          - rewrite E2; [reflexivity|]. intros (i & c & Hi & Hc & E). apply NP. exists i, c. auto. }
        rewrite X. symmetry. apply surjective_pairing.
      + intros M M' l HR (i & c & Hi & Hc & HO & ->). cbn [k_fun thread]. unfold on_nums. cbn [k_reads thread] in HR. fold (L i c).
        assert (HS : M (L i c) = M' (L i c)).
        { apply HR. exists i, c. split; [assumption|]. split; [assumption|]. split; [left; tauto|reflexivity]. }
        rewrite HS. f_equal.
        destruct (thread_eff r Hr (nums M) (entries (nums M)) (entries_repr _)) as [E1 _].
        destruct (thread_eff r Hr (nums M') (entries (nums M')) (entries_repr _)) as [E2 _].
        rewrite E1, E2 by assumption. unfold a_thread. apply mine in HO; try assumption. rewrite HO.
        assert (EN : forall i' c', i' = i \/ i' < p + 1 -> entries (nums M) i' c' = entries (nums M') i' c').
        { intros i' c' H. unfold entries.
          destruct (Z.leb_spec 0 i'), (Z.ltb_spec i' m), (Z.leb_spec 0 c'), (Z.ltb_spec c' n); cbn [andb]; try reflexivity.
          unfold nums. f_equal. apply HR. exists i', c'. split; [unfold m in *; lia|]. split; [unfold n in *; lia|]. split; [|reflexivity].
          apply mine in HO; try assumption. destruct H as [->|H]; [left; tauto|right; lia]. }
        apply Hf; intros; apply EN; auto.
    - cbn [k_reads thread]. apply (FN (fun i => rank_row W r size i \/ i <= p)). intros i _.
      destruct (DR i), (Z_le_gt_dec i p); auto; right; intros [?|?]; try contradiction; lia.
    - cbn [k_writes thread]. apply (FN (fun i => rank_row W r size i /\ p < i)). intros i _.
      destruct (DR i), (Z_lt_le_dec p i); auto; right; intros [? ?]; try contradiction; lia.
  Qed.

  Lemma threads_apart : forall r r', 0 <= r < size -> 0 <= r' < size -> r <> r' -> ~ (exists l, k_writes (thread r) l /\ k_reads (thread r') l).
  Proof.
    intros r r' Hr Hr' NE (l & (i & c & Hi & Hc & [O1 O2] & ->) & (i' & c' & Hi' & Hc' & O' & E)).
    apply (L_inj b W G) in E; try assumption. destruct E as [<- <-]. destruct O' as [O'|O']; [|lia].
    unfold rank_row in *. apply in_rank_tiles in O1; try assumption. apply in_rank_tiles in O'; try assumption.
    destruct O1 as [R1 M1], O' as [R2 M2].
    pose proof (Z.div_mod (i / d_mb W - r) size ltac:(lia)). pose proof (Z.div_mod (i / d_mb W - r') size ltac:(lia)).
    assert ((i / d_mb W - r) / size = (i / d_mb W - r') / size) by nia. lia.
  Qed.

  Definition threads : list (ktask (cell F)) := map thread (zrange 0 size).

  Lemma threads_krun : forall rs M, meq (krun (map thread rs) M)
    (on_nums (fun N => fold_left (fun N r => fold_left op (rank_tiles r size (d_mt W)) N) rs N) M).
  Proof.
    induction rs as [|r rs IH]; intros M l.
    - cbn. apply surjective_pairing.
    - cbn [map krun fold_left]. rewrite IH. reflexivity.
  Qed.

  Lemma threads_region : forall M, region_ensures threads M (fun M' =>
    meq M' (on_nums (fun N => fold_left (fun N r => fold_left op (rank_tiles r size (d_mt W)) N) (zrange 0 size) N) M)).
  Proof.
    intros M. apply region_intro.
    - apply Forall_forall. intros k Hk. apply in_map_iff in Hk. destruct Hk as (r & <- & Hr). apply in_zrange in Hr.
      apply thread_kgood. lia.
    - intros l1 x l2 y l3 E HC. exfalso.
      assert (ND : exists r r', 0 <= r < size /\ 0 <= r' < size /\ r <> r' /\ x = thread r /\ y = thread r').
      { unfold threads in E. apply map_eq_app in E. destruct E as (z1 & z2 & Z1 & Z2 & Z3).
        destruct z2 as [|r z2]; [discriminate|]. cbn [map] in Z3. injection Z3 as X1 X2.
        apply map_eq_app in X2. destruct X2 as (z3 & z4 & Z4 & Z5 & Z6). destruct z4 as [|r' z4]; [discriminate|].
        cbn [map] in Z6. injection Z6 as X3 X4. exists r, r'.
        assert (ND : NoDup (zrange 0 size)) by apply NoDup_zrange. rewrite Z1, Z4 in ND.
        assert (I1 : In r (zrange 0 size)) by (rewrite Z1; apply in_elt).
        assert (I2 : In r' (zrange 0 size)) by (rewrite Z1, Z4; apply in_or_app; right; right; apply in_elt).
        apply in_zrange in I1. apply in_zrange in I2. split; [lia|]. split; [lia|]. split; [|auto].
        intros ->. apply NoDup_remove_2 in ND. apply ND. apply in_or_app. right. apply in_elt. }
      destruct ND as (r & r' & Hr & Hr' & NE & -> & ->). destruct HC as (l & [[H1 [H2|H2]]|[H1 H2]]).
      + apply (threads_apart r r'); eauto.
      + apply (threads_apart r r'); auto. exists l. split; [assumption|].
        destruct H2 as (i & c & ? & ? & [? ?] & ?). exists i, c. auto.
      + apply (threads_apart r' r); eauto.
    - intros M' E l. rewrite E. apply threads_krun.
  Qed.
End Threads.

Section Phases.
  Context {F : fields}.
  Variables (b : Z) (W : desc) (size : Z).
  Hypothesis G : gen_ok W.
  Hypothesis Hm : 0 < d_m W.
  Hypothesis Hn : 0 < d_n W.
  Hypothesis Hnb : d_n W <= d_nb W.
  Hypothesis Hmb : d_n W <= d_mb W.
  Hypothesis Hsize : 0 < size.

  Lemma update_threads_region : forall info k kb j (M : mem (cell F)), 0 <= k <= j -> j < k + kb ->
    k + kb <= Z.min (d_m W) (d_n W) ->
    region_ensures (update_threads b W size info k kb j) M (fun M' =>
      meq M' (on_nums (fun N => fold_left (update_rank b W size info k kb j) (zrange 0 size) N) M)).
  Proof.
    intros info k kb j M Hk Hj Hq.
    apply (threads_region b W size G Hm Hn Hmb Hsize j ltac:(lia) (update_tile b W info k kb j) (a_rowup info k kb j)).
    - intros l Hl. apply sim_update_tile; assumption.
    - intros X1 X2 x x' c' H1 H2. unfold a_rowup. cbv zeta. rewrite !H1, !H2 by lia. reflexivity.
  Qed.

  Lemma gemm_threads_region : forall k kb (M : mem (cell F)), 0 <= k -> 0 < kb -> k + kb <= Z.min (d_m W) (d_n W) ->
    region_ensures (gemm_threads b W size k kb) M (fun M' =>
      meq M' (on_nums (fun N => fold_left (gemm_rank b W size k kb) (zrange 0 size) N) M)).
  Proof.
    intros k kb M Hk Hkb Hq.
    apply (threads_region b W size G Hm Hn Hmb Hsize (k + kb - 1) ltac:(lia) (gemm_tile b W k kb) (a_rowgemm (d_n W) k kb)).
    - intros l Hl. apply sim_gemm_tile; assumption.
    - intros X1 X2 x x' c' H1 H2. unfold a_rowgemm. destruct (_ && _); [|apply H2].
      rewrite H2. apply f_equal. apply f_equal. apply nsum_ext. intros t Ht. rewrite H1, H2 by lia. reflexivity.
  Qed.
End Phases.

(* panel s of a created matrix *)
Lemma panel_of : forall nb m n A size s, ge_create nb m n = CrOk A size -> 0 <= s -> s * nb < m -> s * nb < n ->
  let W := the_view A (s * nb) (s * nb) (m - s * nb) (tile_nview A s) in
  gen_ok W /\ 0 < d_m W /\ 0 < d_n W /\ d_n W <= d_nb W /\ d_n W <= d_mb W /\
  d_m W = m - s * nb /\ d_n W = Z.min nb (n - s * nb).
Proof.
  intros nb m n A size s HC Hs Hm Hn W.
  destruct (ge_create_gen _ _ _ _ _ HC) as (G & E1 & E2 & E3 & E4). destruct (ge_create_dn _ _ _ _ _ HC) as (HD & _).
  pose proof (nb_pos nb A G E1) as NB.
  assert (R : in_tiles A s s) by (apply (dn_in nb A s s HD); lia). destruct R as [R1 R2].
  destruct (pview_ok nb A G E1 E2 ltac:(nia) ltac:(nia) s ltac:(lia)) as (W1 & W2 & W3 & W4 & W5 & _).
  assert (EW : pview nb A s = W) by (unfold pview, W; rewrite E3; reflexivity). rewrite EW in *. clear EW.
  rewrite W2, W3, W4, W5. pose proof (nv_spec nb A G E2 s R2) as NV. rewrite NV, E4. rewrite E3 in *. rewrite E4 in *. split; [assumption|]. repeat split; lia.
Qed.

Lemma panel_update_threads : forall (F : fields) nb m n A asize s b size info k kb j (M : mem (cell F)),
  ge_create nb m n = CrOk A asize -> 0 <= s -> s * nb < m -> s * nb < n -> 0 < size ->
  0 <= k <= j -> j < k + kb -> k + kb <= Z.min (m - s * nb) (Z.min nb (n - s * nb)) ->
  let W := the_view A (s * nb) (s * nb) (m - s * nb) (tile_nview A s) in
  region_ensures (update_threads b W size info k kb j) M (fun M' =>
    meq M' (on_nums (fun N => fold_left (update_rank b W size info k kb j) (zrange 0 size) N) M)).
Proof.
  intros F nb m n A asize s b size info k kb j M HC Hs Hm Hn Hsz Hk Hj Hq W.
  destruct (panel_of nb m n A asize s HC Hs Hm Hn) as (W1 & W2 & W3 & W4 & W5 & W6 & W7). fold W in W1, W2, W3, W4, W5, W6, W7.
  apply update_threads_region; try assumption. rewrite W6, W7. assumption.
Qed.

Lemma panel_gemm_threads : forall (F : fields) nb m n A asize s b size k kb (M : mem (cell F)),
  ge_create nb m n = CrOk A asize -> 0 <= s -> s * nb < m -> s * nb < n -> 0 < size ->
  0 <= k -> 0 < kb -> k + kb <= Z.min (m - s * nb) (Z.min nb (n - s * nb)) ->
  let W := the_view A (s * nb) (s * nb) (m - s * nb) (tile_nview A s) in
  region_ensures (gemm_threads b W size k kb) M (fun M' =>
    meq M' (on_nums (fun N => fold_left (gemm_rank b W size k kb) (zrange 0 size) N) M)).
Proof.
  intros F nb m n A asize s b size k kb M HC Hs Hm Hn Hsz Hk Hkb Hq W.
  destruct (panel_of nb m n A asize s HC Hs Hm Hn) as (W1 & W2 & W3 & W4 & W5 & W6 & W7). fold W in W1, W2, W3, W4, W5, W6, W7.
  apply gemm_threads_region; try assumption. rewrite W6, W7. assumption.
Qed.
