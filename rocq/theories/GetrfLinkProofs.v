(* The LU factorization on the tile matrix: the dependencies order every conflict, and the
   panels wait for each other. *)
From Coq Require Import ZArith List Bool Lia.
From Verif Require Import Base NumModel FieldModel TaskModel TaskSpec TaskProofs DescModel DescSpec DescProofs
  DescDriverModel MatModel MatProofs RegionProofs LayoutModel SwpModel SwpProofs GuardModel GuardSpec GuardProofs GuardProofs2
  GroupProofs PanelProofs GetrfModel GetrfProofs.
Import ListNotations.
Open Scope Z_scope.

Lemma app_mid : forall T (a d l1 l3 : list T) x, a ++ d = l1 ++ x :: l3 ->
  (exists l, a = l1 ++ x :: l /\ l3 = l ++ d) \/ (exists l, d = l ++ x :: l3 /\ l1 = a ++ l).
Proof.
  intros T a. induction a as [|y a IH]; intros d l1 l3 x E.
  - right. exists l1. auto.
  - destruct l1 as [|z l1]; cbn in E; injection E as -> E.
    + left. exists a. auto.
    + destruct (IH d l1 l3 x E) as [(l & -> & ->)|(l & -> & ->)]; [left|right]; exists l; auto.
Qed.

Section Lists.
  Context {V : Type}.

  Lemma klinked_app : forall a d : list (ktask V), klinked a -> klinked d ->
    (forall l1 x l2 m1 y m2, a = l1 ++ x :: l2 -> d = m1 ++ y :: m2 -> kconflict x y -> linked x (l2 ++ m1) y) ->
    klinked (a ++ d).
  Proof.
    intros a d Ha Hd HX l1 x l2 y l3 E HC. destruct (app_mid _ _ _ _ _ _ E) as [(l & E1 & E2)|(l & E1 & E2)].
    - symmetry in E2. destruct (app_mid _ _ _ _ _ _ E2) as [(r & E3 & E4)|(r & E3 & E4)].
      + apply (Ha l1 x l2 y r); [|assumption]. rewrite E1, E3. reflexivity.
      + rewrite E4. apply (HX l1 x l r y l3); assumption.
    - apply (Hd l x l2 y l3); assumption.
  Qed.

  Lemma linked_via : forall (x c y : ktask V) l1 l2, deps_order (k_deps x) (k_deps c) -> deps_order (k_deps c) (k_deps y) ->
    linked x (l1 ++ c :: l2) y.
  Proof. intros x c y l1 l2 H1 H2. apply ln_trans; apply ln_direct; assumption. Qed.

  Lemma deps_by : forall (xs ys : list dep) d d', In d xs -> In d' ys -> dep_addr d = dep_addr d' ->
    dep_type d <> DepIn \/ dep_type d' <> DepIn -> deps_order xs ys.
  Proof. intros xs ys d d' H1 H2 H3 H4. exists d, d'. tauto. Qed.

  (* blocks with a task that may fail in the middle *)
  Lemma ch_blocks2 : forall (q : Z -> list (ktask V)) (p : Z -> cktask V) (r : Z -> list (ktask V)) hi tail,
    (forall k, ck_may_fail (p k) = true) ->
    (forall prev, ch prev tail) ->
    forall lo, (forall k, lo <= k -> k + 1 < hi -> linked (ck_task (p k)) (r k ++ q (k + 1)) (ck_task (p (k + 1)))) ->
    forall prev, (lo < hi -> match prev with Some (a, l) => linked a (l ++ q lo) (ck_task (p lo)) | None => True end) ->
    ch prev (flat_map (fun k => map sure (q k) ++ p k :: map sure (r k)) (zrange lo hi) ++ tail).
  Proof.
    intros q p r hi tail HP HT.
    assert (G : forall d lo, Z.of_nat d = hi - lo ->
      (forall k, lo <= k -> k + 1 < hi -> linked (ck_task (p k)) (r k ++ q (k + 1)) (ck_task (p (k + 1)))) ->
      forall prev, (lo < hi -> match prev with Some (a, l) => linked a (l ++ q lo) (ck_task (p lo)) | None => True end) ->
      ch prev (flat_map (fun k => map sure (q k) ++ p k :: map sure (r k)) (zrange lo hi) ++ tail)).
    { induction d as [|d IH]; intros lo Hd HL prev Hp.
      - rewrite zrange_nil by lia. apply HT.
      - rewrite zrange_cons by lia. cbn [flat_map]. rewrite <- !app_assoc.
        assert (R : match prev with Some (a, l) => linked a (l ++ q lo) (ck_task (p lo)) | None => True end ->
          ch (match prev with Some (a, l) => Some (a, l ++ q lo) | None => None end)
            ((p lo :: map sure (r lo)) ++ flat_map (fun k => map sure (q k) ++ p k :: map sure (r k)) (zrange (lo + 1) hi) ++ tail)).
        { intros H. cbn. rewrite HP. split; [destruct prev as [[a l]|]; exact H|].
          apply (ch_sure_some (r lo) _ (ck_task (p lo)) []). cbn [app].
          apply IH; [lia|intros; apply HL; lia|]. intros H'. apply HL; lia. }
        specialize (R (Hp ltac:(lia))). destruct prev as [[a l]|].
        + apply ch_sure_some. exact R.
        + apply ch_sure_none. exact R. }
    intros lo HL prev Hp. destruct (Z_lt_le_dec lo hi) as [H|H].
    - apply (G (Z.to_nat (hi - lo))); auto. lia.
    - rewrite zrange_nil by lia. apply HT.
  Qed.
End Lists.

Section Link.
  Context {F : fields}.
  Variable bigger : F -> F -> bool.
  Variables (nb b : Z) (A : desc) (pI : loc) (ib mpt : Z).
  Hypothesis G : gen_ok A.
  Hypothesis Emb : d_mb A = nb.
  Hypothesis Enb : d_nb A = nb.
  Hypothesis Hm : 0 < d_m A.
  Hypothesis Hn : 0 < d_n A.
  Hypothesis Hpi : fst pI <> b.

  Let m := d_m A.
  Let n := d_n A.
  Let L (i j : Z) : loc := (b, elem_off A i j).
  Let T := Z.min (d_mt A) (d_nt A).
  Let NB := nb_pos nb A G Emb.

  Notation ptask k := (ck_task (panel_task bigger b A pI ib mpt k)).
  Notation utask k c := (@update_task F b A pI k c).
  Notation ltask k := (@left_task F b A pI k).

  Definition incol (l : loc) (c : Z) : Prop :=
    0 <= c < d_nt A /\ exists i j, 0 <= i < m /\ c * nb <= j < c * nb + tile_nview A c /\ l = L i j.

  Lemma incol_col : forall k c l, 0 <= k -> 0 <= c < d_nt A -> col_from b A k c l -> incol l c.
  Proof.
    intros k c l Hk Hc H. apply (col_from_spec nb b A G Emb Enb Hm Hn) in H; try assumption.
    destruct H as (i & j & Hi & Hj & ->). split; [assumption|]. exists i, j. fold m in Hi. split; [nia|]. split; [assumption|reflexivity].
  Qed.

  Lemma incol_fun : forall l c c', incol l c -> incol l c' -> c = c'.
  Proof.
    intros l c c' (Hc & i & j & Hi & Hj & ->) (Hc' & i' & j' & Hi' & Hj' & E).
    pose proof (nv_spec nb A G Enb c Hc) as V1. pose proof (nv_spec nb A G Enb c' Hc') as V2. fold n in V1, V2.
    apply (G_inj b A G) in E; fold m n; try nia. 
  Qed.

  Lemma incol_block : forall l c, incol l c -> fst l = b.
  Proof. intros l c (_ & i & j & _ & _ & ->). reflexivity. Qed.

  (* a task that names the last tile of each tile column it touches *)
  Definition cdecl (k : ktask (cell F)) : Prop :=
    (forall l, k_reads k l -> fst l = b -> exists c, incol l c /\
       exists d, In d (k_deps k) /\ dep_addr d = tptr b A (d_mt A - 1) c) /\
    (forall l, k_writes k l -> fst l = b -> exists c, incol l c /\
       exists d, In d (k_deps k) /\ dep_addr d = tptr b A (d_mt A - 1) c /\ dep_type d <> DepIn).

  Lemma cdecl_order : forall x y l, cdecl x -> cdecl y -> fst l = b ->
    k_writes x l /\ (k_reads y l \/ k_writes y l) \/ k_reads x l /\ k_writes y l ->
    deps_order (k_deps x) (k_deps y).
  Proof.
    intros x y l [X1 X2] [Y1 Y2] Hb HC.
    destruct HC as [[HX [HY|HY]]|[HX HY]].
    - destruct (X2 l HX Hb) as (c & I & d & D1 & D2 & D3). destruct (Y1 l HY Hb) as (c' & I' & d' & D1' & D2').
      rewrite (incol_fun l c c' I I') in D2. apply (deps_by _ _ d d'); auto. congruence.
    - destruct (X2 l HX Hb) as (c & I & d & D1 & D2 & D3). destruct (Y2 l HY Hb) as (c' & I' & d' & D1' & D2' & D3').
      rewrite (incol_fun l c c' I I') in D2. apply (deps_by _ _ d d'); auto. congruence.
    - destruct (X1 l HX Hb) as (c & I & d & D1 & D2). destruct (Y2 l HY Hb) as (c' & I' & d' & D1' & D2' & D3').
      rewrite (incol_fun l c c' I I') in D2. apply (deps_by _ _ d d'); auto. congruence.
  Qed.

  Lemma ipiv_block : forall lo hi l, ipiv_sec pI lo hi l -> fst l <> b.
  Proof. intros lo hi l (t & _ & ->). exact Hpi. Qed.

  Lemma idle_cdecl : forall k, idle k -> cdecl k.
  Proof. intros k [H1 H2]. split; intros l Hl; exfalso; [apply (H1 l)|apply (H2 l)]; assumption. Qed.

  Lemma panel_cdecl : forall k, 0 <= k < T -> cdecl (ptask k).
  Proof.
    intros k Hk. unfold T in Hk. split; intros l [Hl|Hl] Hb; try (exfalso; apply (ipiv_block _ _ _ Hl Hb));
      apply (incol_col k k l ltac:(lia) ltac:(lia)) in Hl; exists k; (split; [assumption|]);
      exists (dep_inout (tptr b A (d_mt A - 1) k)).
    - split; [right; left; reflexivity|reflexivity].
    - split; [right; left; reflexivity|]. split; [reflexivity|discriminate].
  Qed.

  Lemma update_cdecl : forall k c, 0 <= k < T -> k < c < d_nt A -> cdecl (utask k c).
  Proof.
    intros k c Hk Hc. unfold T in Hk. split.
    - intros l [Hl|[Hl|Hl]] Hb; [| |exfalso; apply (ipiv_block _ _ _ Hl Hb)].
      + apply (incol_col k k l ltac:(lia) ltac:(lia)) in Hl. exists k. split; [assumption|].
        exists (dep_in (tptr b A (d_mt A - 1) k)). split; [right; left; reflexivity|reflexivity].
      + apply (incol_col k c l ltac:(lia) ltac:(lia)) in Hl. exists c. split; [assumption|].
        exists (dep_inout (tptr b A (d_mt A - 1) c)). split; [do 5 right; left; reflexivity|reflexivity].
    - intros l Hl Hb. apply (incol_col k c l ltac:(lia) ltac:(lia)) in Hl. exists c. split; [assumption|].
      exists (dep_inout (tptr b A (d_mt A - 1) c)). split; [do 5 right; left; reflexivity|]. split; [reflexivity|discriminate].
  Qed.

  Lemma left_cdecl : forall k, 0 <= k < T - 1 -> cdecl (ltask k).
  Proof.
    intros k Hk. unfold T in Hk. split.
    - intros l [Hl|Hl] Hb; [|exfalso; apply (ipiv_block _ _ _ Hl Hb)].
      apply (incol_col (k + 1) k l ltac:(lia) ltac:(lia)) in Hl. exists k. split; [assumption|].
      exists (dep_inout (tptr b A (d_mt A - 1) k)). split; [do 2 right; left; reflexivity|reflexivity].
    - intros l Hl Hb. apply (incol_col (k + 1) k l ltac:(lia) ltac:(lia)) in Hl. exists k. split; [assumption|].
      exists (dep_inout (tptr b A (d_mt A - 1) k)). split; [do 2 right; left; reflexivity|]. split; [reflexivity|discriminate].
  Qed.

  (* the parts of the task list *)
  Definition fakes (k : Z) : list (ktask (cell F)) :=
    map (fun m => fake_task [dep_in (tptr b A m k); dep_inout (tptr b A k k)]) (zrange (k + 1) (d_mt A - 1)).
  Definition updates (k : Z) : list (ktask (cell F)) := map (fun n => utask k n) (zrange (k + 1) (d_nt A)).
  Definition gathers : list (ktask (cell F)) :=
    map (fun m => fake_task [dep_in (fst pI, snd pI + m * d_mb A); dep_inout pI]) (zrange 0 T).
  Definition fakes' (k : Z) : list (ktask (cell F)) :=
    map (fun m => fake_task [dep_in (tptr b A (k + 1) k); dep_inout (tptr b A m k)]) (zrange (k + 2) (d_mt A - 1)).

  Definition partF : list (ktask (cell F)) := flat_map (fun k => fakes k ++ ptask k :: updates k) (zrange 0 T).
  Definition partL : list (ktask (cell F)) := flat_map (fun k => ltask k :: fakes' k) (zrange 0 (T - 1)).

  Lemma pzgetrf_parts : pzgetrf bigger b A pI ib mpt =
    flat_map (fun k => map sure (fakes k) ++ panel_task bigger b A pI ib mpt k :: map sure (updates k)) (zrange 0 T) ++
    map sure gathers ++ map sure partL.
  Proof.
    unfold pzgetrf. cbv zeta. fold T. f_equal; [|f_equal].
    - apply flat_map_ext. intros k. unfold fakes, updates. rewrite !map_map. reflexivity.
    - unfold gathers. rewrite map_map. reflexivity.
    - unfold partL. rewrite !flat_map_concat_map, concat_map, map_map. f_equal. apply map_ext. intros k. cbn [map].
      unfold fakes'. rewrite map_map. reflexivity.
  Qed.

  Lemma pzgetrf_tasks : map ck_task (pzgetrf bigger b A pI ib mpt) = partF ++ gathers ++ partL.
  Proof.
    rewrite pzgetrf_parts, !map_app, !map_sure. f_equal. unfold partF.
    rewrite !flat_map_concat_map, concat_map, map_map. f_equal. apply map_ext. intros k.
    rewrite map_app. cbn [map]. rewrite !map_sure. reflexivity.
  Qed.

  Lemma fakes_idle : forall k, Forall idle (fakes k).
  Proof. intros k. apply Forall_forall. intros x Hx. apply in_map_iff in Hx. destruct Hx as (c & <- & _). apply fake_idle. Qed.
  Lemma fakes'_idle : forall k, Forall idle (fakes' k).
  Proof. intros k. apply Forall_forall. intros x Hx. apply in_map_iff in Hx. destruct Hx as (c & <- & _). apply fake_idle. Qed.
  Lemma gathers_idle : Forall idle gathers.
  Proof. apply Forall_forall. intros x Hx. apply in_map_iff in Hx. destruct Hx as (c & <- & _). apply fake_idle. Qed.

  Lemma in_partF : forall x, In x partF -> (exists d, x = fake_task d) \/ (exists k, 0 <= k < T /\ x = ptask k) \/
    (exists k c, 0 <= k < T /\ k < c < d_nt A /\ x = utask k c).
  Proof.
    intros x Hx. apply in_flat_map in Hx. destruct Hx as (k & Hk & Hx). apply in_zrange in Hk.
    apply in_app_or in Hx. destruct Hx as [Hx|[<-|Hx]].
    - left. apply in_map_iff in Hx. destruct Hx as (c & <- & _). eauto.
    - right. left. eauto.
    - right. right. apply in_map_iff in Hx. destruct Hx as (c & <- & Hc). apply in_zrange in Hc. exists k, c. split; [assumption|].
      split; [lia|reflexivity].
  Qed.
  Lemma in_partL : forall x, In x partL -> (exists d, x = fake_task d) \/ (exists k, 0 <= k < T - 1 /\ x = ltask k).
  Proof.
    intros x Hx. apply in_flat_map in Hx. destruct Hx as (k & Hk & Hx). apply in_zrange in Hk.
    destruct Hx as [<-|Hx].
    - right. eauto.
    - left. apply in_map_iff in Hx. destruct Hx as (c & <- & _). eauto.
  Qed.

  (* where a location belongs *)
  Definition home (l a : loc) : Prop :=
    (exists c, incol l c /\ a = tptr b A (d_mt A - 1) c) \/
    (exists t, l = (fst pI, snd pI + t) /\ a = (fst pI, snd pI + t / nb * nb)).

  Lemma home_fun : functional home.
  Proof.
    intros l a a' [(c & I & ->)|(t & -> & ->)] [(c' & I' & ->)|(t' & E & ->)].
    - rewrite (incol_fun l c c' I I'). reflexivity.
    - apply incol_block in I. rewrite E in I. cbn in I. contradiction.
    - apply incol_block in I'. cbn in I'. contradiction.
    - injection E as E. replace t' with t by lia. reflexivity.
  Qed.

  Lemma chunk : forall k hi l, ipiv_sec pI (k * nb) hi l -> hi <= k * nb + nb -> home l (fst pI, snd pI + k * nb).
  Proof.
    intros k hi l (t & Ht & ->) Hh. right. exists t. split; [reflexivity|].
    replace (t / nb) with k; [reflexivity|]. apply (Z.div_unique t nb k (t - k * nb)); lia.
  Qed.

  Lemma partF_kdecl : Forall (kdecl home) partF.
  Proof.
    apply Forall_forall. intros x Hx. destruct (in_partF x Hx) as [(d & ->)|[(k & Hk & ->)|(k & c & Hk & Hc & ->)]].
    - split; intros l [].
    - unfold T in Hk. pose proof (nv_spec nb A G Enb k ltac:(lia)) as NV.
      assert (D : forall l, k_reads (ptask k) l -> exists d, In d (k_deps (ptask k)) /\ home l (dep_addr d) /\ dep_type d <> DepIn).
      { intros l [Hl|Hl].
        - apply (incol_col k k l ltac:(lia) ltac:(lia)) in Hl. exists (dep_inout (tptr b A (d_mt A - 1) k)).
          split; [right; left; reflexivity|]. split; [|discriminate]. left. exists k. auto.
        - exists (dep_out (fst pI, snd pI + k * d_mb A)). split; [do 2 right; left; reflexivity|]. split; [|discriminate].
          cbn [dep_addr dep_out]. rewrite Emb in Hl |- *. apply (chunk k _ l Hl). lia. }
      split; [|exact D]. intros l Hl _. destruct (D l Hl) as (d & D1 & D2 & _). eauto.
    - unfold T in Hk. split.
      + intros l [Hl|[Hl|Hl]] _.
        * apply (incol_col k k l ltac:(lia) ltac:(lia)) in Hl. exists (dep_in (tptr b A (d_mt A - 1) k)).
          split; [right; left; reflexivity|]. left. exists k. auto.
        * apply (incol_col k c l ltac:(lia) ltac:(lia)) in Hl. exists (dep_inout (tptr b A (d_mt A - 1) c)).
          split; [do 5 right; left; reflexivity|]. left. exists c. auto.
        * exists (dep_in (fst pI, snd pI + k * d_mb A)). split; [do 2 right; left; reflexivity|].
          cbn [dep_addr dep_in]. rewrite Emb in Hl |- *. apply (chunk k _ l Hl). lia.
      + intros l Hl. apply (incol_col k c l ltac:(lia) ltac:(lia)) in Hl. exists (dep_inout (tptr b A (d_mt A - 1) c)).
        split; [do 5 right; left; reflexivity|]. split; [left; exists c; auto|discriminate].
  Qed.

  Lemma partF_cdecl : forall x, In x partF -> cdecl x.
  Proof.
    intros x Hx. destruct (in_partF x Hx) as [(d & ->)|[(k & Hk & ->)|(k & c & Hk & Hc & ->)]].
    - apply idle_cdecl, fake_idle.
    - apply panel_cdecl; assumption.
    - apply update_cdecl; assumption.
  Qed.
  Lemma partL_cdecl : forall x, In x partL -> cdecl x.
  Proof.
    intros x Hx. destruct (in_partL x Hx) as [(d & ->)|(k & Hk & ->)].
    - apply idle_cdecl, fake_idle.
    - apply left_cdecl; assumption.
  Qed.

  Lemma partL_klinked : klinked partL.
  Proof.
    intros l1 x l2 y l3 E (l & HC). apply ln_direct.
    assert (IX : In x partL) by (rewrite E; apply in_elt).
    assert (IY : In y partL) by (rewrite E; apply in_or_app; right; right; apply in_elt).
    destruct (in_partL x IX) as [(d & ->)|(k & Hk & EX)]; [cbn in HC; tauto|].
    destruct (in_partL y IY) as [(d & ->)|(k' & Hk' & EY)]; [cbn in HC; tauto|].
    apply (cdecl_order x y l); [apply partL_cdecl; assumption|apply partL_cdecl; assumption| |assumption].
    assert (W : k_writes x l \/ k_writes y l) by tauto. unfold T in Hk, Hk'.
    destruct W as [W|W]; [rewrite EX in W|rewrite EY in W]; (eapply incol_block; eapply incol_col; [| |exact W]; lia).
  Qed.

  Lemma gathers_linked : forall m1 y m2, gathers ++ partL = m1 ++ y :: m2 -> ~ idle y ->
    exists r, m1 = gathers ++ r /\ partL = r ++ y :: m2.
  Proof. intros m1 y m2 E H. apply busy_app; [apply gathers_idle|assumption|assumption]. Qed.

  (* the gathering task of a panel's pivots is among the gathers *)
  Lemma gather_mid : forall k, 0 <= k < T -> exists g1 g2,
    gathers = g1 ++ fake_task [dep_in (fst pI, snd pI + k * d_mb A); dep_inout pI] :: g2.
  Proof.
    intros k Hk. unfold gathers. rewrite (zrange_app 0 k T) by lia. rewrite (zrange_cons k T) by lia.
    rewrite map_app. cbn [map]. eauto.
  Qed.

  Lemma pzgetrf_klinked : klinked (map ck_task (pzgetrf bigger b A pI ib mpt)).
  Proof.
    rewrite pzgetrf_tasks. apply klinked_app.
    - apply korders_klinked. apply (kdecl_korders _ home); [apply home_fun|apply partF_kdecl].
    - intros l1 x l2 y l3 E HC.
      assert (BX : ~ idle x) by (intros [I1 I2]; destruct HC as (l & HC); specialize (I1 l); specialize (I2 l); tauto).
      destruct (gathers_linked _ _ _ E BX) as (r & -> & E'). apply (partL_klinked r x l2 y l3 E' HC).
    - intros l1 x l2 m1 y m2 EF EL HC.
      assert (BY : ~ idle y) by (intros [I1 I2]; destruct HC as (l & HC); specialize (I1 l); specialize (I2 l); tauto).
      destruct (gathers_linked _ _ _ EL BY) as (r & -> & E').
      assert (IX : In x partF) by (rewrite EF; apply in_elt).
      assert (IY : In y partL) by (rewrite E'; apply in_elt).
      destruct HC as (l & HC).
      destruct (Z.eq_dec (fst l) b) as [Hb|Hb].
      { apply ln_direct. apply (cdecl_order x y l); auto using partF_cdecl, partL_cdecl. }
      destruct (in_partL y IY) as [(d & ->)|(k' & Hk' & ->)]; [exfalso; apply BY; apply fake_idle|].
      assert (NW : ~ k_writes (ltask k') l).
      { intros W. apply Hb. unfold T in Hk'. eapply incol_block; eapply incol_col; [| |exact W]; lia. }
      assert (WX : k_writes x l) by tauto. clear HC.
      destruct (in_partF x IX) as [(d & ->)|[(k & Hk & ->)|(k & c & Hk & Hc & ->)]].
      + destruct WX.
      + destruct (gather_mid k Hk) as (g1 & g2 & EG). rewrite EG.
        replace (l2 ++ (g1 ++ fake_task [dep_in (fst pI, snd pI + k * d_mb A); dep_inout pI] :: g2) ++ r)
          with ((l2 ++ g1) ++ fake_task [dep_in (fst pI, snd pI + k * d_mb A); dep_inout pI] :: (g2 ++ r))
          by (rewrite <- !app_assoc; reflexivity).
        apply linked_via.
        * apply (deps_by _ _ (dep_out (fst pI, snd pI + k * d_mb A)) (dep_in (fst pI, snd pI + k * d_mb A)));
            [do 2 right; left; reflexivity|left; reflexivity|reflexivity|left; discriminate].
        * apply (deps_by _ _ (dep_inout pI) (dep_in pI)); [right; left; reflexivity|left; reflexivity|reflexivity|left; discriminate].
      + exfalso. apply Hb. unfold T in Hk. eapply incol_block; eapply incol_col; [| |exact WX]; lia.
  Qed.

  Lemma panels_waiting : forall k, 0 <= k -> k + 1 < T ->
    linked (ptask k) (updates k ++ fakes (k + 1)) (ptask (k + 1)).
  Proof.
    intros k Hk Hk'. unfold T in Hk'. unfold updates. rewrite (zrange_cons (k + 1)) by lia. cbn [map app].
    apply (linked_via _ (utask k (k + 1)) _ []).
    - apply (deps_by _ _ (dep_inout (tptr b A (d_mt A - 1) k)) (dep_in (tptr b A (d_mt A - 1) k)));
        [right; left; reflexivity|right; left; reflexivity|reflexivity|left; discriminate].
    - apply (deps_by _ _ (dep_inout (tptr b A (d_mt A - 1) (k + 1))) (dep_inout (tptr b A (d_mt A - 1) (k + 1))));
        [do 5 right; left; reflexivity|right; left; reflexivity|reflexivity|left; discriminate].
  Qed.

  Lemma pzgetrf_ch : forall tail, (forall prev, ch prev tail) ->
    ch None (pzgetrf bigger b A pI ib mpt ++ tail).
  Proof.
    intros tail HT. rewrite pzgetrf_parts, <- !app_assoc. apply ch_blocks2 with (prev := None).
    - reflexivity.
    - intros prev. rewrite app_assoc, <- map_app. destruct prev as [[a l]|].
      + apply ch_sure_some. apply HT.
      + apply ch_sure_none. apply HT.
    - intros k H1 H2. apply panels_waiting; assumption.
    - auto.
  Qed.

  Lemma pzgetrf_fail_chain : fail_chain (pzgetrf bigger b A pI ib mpt).
  Proof.
    apply (ch_fail_chain _ None). rewrite <- (app_nil_r (pzgetrf bigger b A pI ib mpt)). apply pzgetrf_ch. intros [[a l]|]; exact I.
  Qed.
End Link.
