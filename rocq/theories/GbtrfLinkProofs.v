(* plasma_pzgbtrf: the dependencies order every conflict, through tasks in between where needed,
   and the panels wait for each other. *)
From Coq Require Import ZArith List Bool Lia.
From Verif Require Import Base NumModel FieldModel TaskModel TaskSpec TaskProofs DescModel DescSpec DescProofs DescPackProofs
  DescDriverModel MatModel MatProofs RegionProofs LayoutModel GemmProofs SwpModel SwpProofs GuardModel GuardSpec GuardProofs GuardProofs2
  NormGbLayoutProofs GetrfModel GetrfAbsProofs GetrfPanelProofs GetrfProofs GetrfLinkProofs GbtrfModel GbtrfMathProofs GbtrfTaskProofs.
Import ListNotations.
Open Scope Z_scope.

Lemma flat_map_mid : forall T (f : Z -> list T) hi lo l1 y l3, flat_map f (zrange lo hi) = l1 ++ y :: l3 ->
  exists k p q, lo <= k < hi /\ f k = p ++ y :: q /\ l1 = flat_map f (zrange lo k) ++ p.
Proof.
  intros T f hi.
  assert (G : forall d lo, Z.of_nat d = hi - lo -> forall l1 y l3, flat_map f (zrange lo hi) = l1 ++ y :: l3 ->
    exists k p q, lo <= k < hi /\ f k = p ++ y :: q /\ l1 = flat_map f (zrange lo k) ++ p).
  { induction d as [|d IH]; intros lo Hd l1 y l3 E.
    - rewrite zrange_nil in E by lia. destruct l1; discriminate.
    - rewrite zrange_cons in E by lia. cbn [flat_map] in E. destruct (app_mid _ _ _ _ _ _ E) as [(l & E1 & _)|(l & E1 & ->)].
      + exists lo, l1, l. split; [lia|]. split; [assumption|]. rewrite zrange_nil by lia. reflexivity.
      + destruct (IH (lo + 1) ltac:(lia) l y l3 E1) as (k & p & q & Hk & E2 & ->). exists k, p, q. split; [lia|]. split; [assumption|].
        rewrite (zrange_cons lo k) by lia. cbn [flat_map]. apply app_assoc. }
  intros lo l1 y l3 E. destruct (Z_lt_le_dec lo hi) as [H|H].
  - apply (G (Z.to_nat (hi - lo)) lo ltac:(lia) l1 y l3 E).
  - rewrite zrange_nil in E by lia. destruct l1; discriminate.
Qed.

Section Link.
  Context {F : fields}.
  Variable bigger : F -> F -> bool.
  Variables (A : desc) (nb n kl ku b : Z) (pI : loc) (ib mpt : Z).
  Hypothesis HA : gd_ok A nb n n kl ku.
  Hypothesis BK : band_ok A.
  Hypothesis Hpi : fst pI <> b.
  Let T := ntl nb n.
  Let w := pw nb n.

  Notation ptask k := (ck_task (gb_panel bigger b A pI ib mpt k)).
  Notation utask k c := (@gb_update F b A pI k c).
  Notation stask k := (@gb_shift F A pI k).

  Definition step_tasks (k : Z) : list (ktask (cell F)) :=
    ptask k :: map (fun c => utask k c) (zrange (k + 1) (Z.min T (k + d_kut A))) ++ [stask k].

  Lemma gbtrf_tasks : map ck_task (pzgbtrf bigger b A pI ib mpt) = flat_map step_tasks (zrange 0 T).
  Proof.
    unfold pzgbtrf. rewrite (gd_mt _ _ _ _ _ _ HA), (gd_nt _ _ _ _ _ _ HA). fold T. rewrite Z.min_id.
    rewrite !flat_map_concat_map, concat_map, map_map. f_equal. apply map_ext. intros k. cbn [map]. unfold step_tasks.
    rewrite map_app, map_map. reflexivity.
  Qed.

  (* ---------------- what the tasks touch ---------------- *)

  Definition incol (l : loc) (c : Z) : Prop := exists i j, tbe A nb n i j /\ c * nb <= j < c * nb + w c /\ l = gE A b i j.

  Lemma incol_fun : forall l c c', 0 <= c -> 0 <= c' -> incol l c -> incol l c' -> c = c'.
  Proof.
    intros l c c' Hc Hc' (i & j & TB & Hj & ->) (i' & j' & TB' & Hj' & E).
    apply (gf_inj A nb n kl ku b HA BK) in E; try assumption. destruct E as [_ ->]. unfold w, pw in *.
    pose proof (gf_pos A nb n kl ku HA). nia.
  Qed.
  Lemma incol_block : forall l c, incol l c -> fst l = b.
  Proof. intros l c (i & j & _ & _ & ->). reflexivity. Qed.

  Lemma part_incol : forall k c l, 0 <= k -> k <= c < Z.min T (k + d_kut A) -> gb_part b A k c l -> incol l c.
  Proof.
    intros k c l Hk Hc H. apply (gf_part A nb n kl ku b HA) in H; [|assumption|fold T; lia].
    destruct H as (i & j & Hi & Hj & ->). exists i, j. split; [|auto]. apply (gR_tbe A nb n kl ku HA k c); assumption.
  Qed.

  Definition insec (l : loc) (k : Z) : Prop := exists t, k * nb <= t < (k + 1) * nb /\ l = (fst pI, snd pI + t).
  Lemma insec_fun : forall l k k', insec l k -> insec l k' -> k = k'.
  Proof.
    intros l k k' (t & Ht & ->) (t' & Ht' & E). injection E as E. assert (t = t') by lia. subst t'.
    pose proof (gf_pos A nb n kl ku HA). nia.
  Qed.
  Lemma insec_block : forall l k, insec l k -> fst l <> b.
  Proof. intros l k (t & _ & ->). exact Hpi. Qed.
  Lemma sec_insec : forall k q l, q <= nb -> ipiv_sec (gb_ipiv A pI k) 0 q l -> insec l k.
  Proof.
    intros k q l Hq (t & Ht & ->). exists (k * nb + t). split; [lia|]. unfold ipiv_at, gb_ipiv. cbn [fst snd].
    rewrite (gf_mb A nb n kl ku HA). f_equal. lia.
  Qed.

  (* a task of step k touches the pivots of step k, and the tile columns of cs *)
  Definition touches (k : Z) (cs : Z -> Prop) (x : ktask (cell F)) : Prop :=
    forall l, k_reads x l \/ k_writes x l -> (exists c, cs c /\ incol l c) \/ insec l k.

  Lemma panel_touches : forall k, 0 <= k < T -> touches k (fun c => c = k) (ptask k).
  Proof.
    intros k Hk l H. pose proof (gf_kut1 A BK).
    assert (H' : gb_part b A k k l \/ ipiv_sec (gb_ipiv A pI k) 0 (Z.min (gb_rows A k) (tile_nview A k)) l) by (destruct H; assumption).
    destruct H' as [H'|H'].
    - left. exists k. split; [reflexivity|]. apply (part_incol k k); try assumption; lia.
    - right. apply (sec_insec k _ l) in H'; [assumption|]. rewrite (gf_nv A nb n kl ku HA) by assumption. unfold pw. lia.
  Qed.
  Lemma update_touches : forall k c, 0 <= k -> k < c < Z.min T (k + d_kut A) ->
    touches k (fun x => x = k \/ x = c) (utask k c).
  Proof.
    intros k c Hk Hc l H.
    assert (H' : gb_part b A k k l \/ gb_part b A k c l \/
      ipiv_sec (gb_ipiv A pI k) 0 (Z.min (k * d_mb A + d_mb A) (d_m A) - k * d_mb A) l).
    { destruct H as [H|H]; [exact H|]. right. left. exact H. }
    destruct H' as [H'|[H'|H']].
    - left. exists k. split; [auto|]. apply (part_incol k k); try assumption; lia.
    - left. exists c. split; [auto|]. apply (part_incol k c); try assumption; lia.
    - right. apply (sec_insec k _ l) in H'; [assumption|]. rewrite (gf_mb A nb n kl ku HA). lia.
  Qed.
  Lemma update_writes : forall k c l, 0 <= k -> k < c < Z.min T (k + d_kut A) -> k_writes (utask k c) l -> incol l c.
  Proof. intros k c l Hk Hc H. apply (part_incol k c); try assumption; lia. Qed.
  Lemma shift_touches : forall k, 0 <= k < T -> touches k (fun _ => False) (stask k).
  Proof.
    intros k Hk l H. right. assert (H' : ipiv_sec (gb_ipiv A pI k) 0 (Z.min (gb_rows A k) (tile_nview A k)) l) by (destruct H; assumption).
    apply (sec_insec k _ l) in H'; [assumption|]. rewrite (gf_nv A nb n kl ku HA) by assumption. unfold pw. lia.
  Qed.

  (* ---------------- the tasks of one step ---------------- *)

  Lemma in_step : forall k x, In x (step_tasks k) -> x = ptask k \/ (exists c, k < c < Z.min T (k + d_kut A) /\ x = utask k c) \/ x = stask k.
  Proof.
    intros k x [<-|H]; [auto|]. apply in_app_or in H. destruct H as [H|[<-|[]]]; [|auto].
    apply in_map_iff in H. destruct H as (c & <- & Hc). apply in_zrange in Hc. right. left. exists c. split; [lia|reflexivity].
  Qed.

  Lemma step_korders : forall k, korders (step_tasks k).
  Proof.
    intros k.
    assert (G : forall l, Forall (fun x : ktask (cell F) => exists d, In d (k_deps x) /\ dep_addr d = gb_ipiv A pI k /\ dep_type d <> DepIn) l ->
      forall y, (exists d, In d (k_deps y) /\ dep_addr d = gb_ipiv A pI k) -> korders (l ++ [y])).
    { intros l HL y (e & E1 & E2). induction HL as [|x l (d & D1 & D2 & D3) HL IH]; cbn [app].
      - constructor; [intros ? []|constructor].
      - constructor; [|exact IH]. intros z Hz _. apply in_app_or in Hz. destruct Hz as [Hz|[<-|[]]].
        + rewrite Forall_forall in HL. destruct (HL z Hz) as (d' & D1' & D2' & D3'). apply (deps_by _ _ d d'); auto. congruence.
        + apply (deps_by _ _ d e); auto. congruence. }
    unfold step_tasks. change (?a :: ?l ++ [?z]) with ((a :: l) ++ [z]). apply G.
    - constructor.
      + exists (dep_out (gb_ipiv A pI k)). split; [right; left; reflexivity|]. split; [reflexivity|discriminate].
      + apply Forall_forall. intros x Hx. apply in_map_iff in Hx. destruct Hx as (c & <- & _).
        exists (dep_inout (gb_ipiv A pI k)). split; [right; left; reflexivity|]. split; [reflexivity|discriminate].
    - exists (dep_in (gb_ipiv A pI k)). split; [left; reflexivity|reflexivity].
  Qed.

  (* ---------------- the chain of the tasks on one tile column ---------------- *)

  Lemma update_mid : forall k c, k < c < Z.min T (k + d_kut A) -> exists p q, step_tasks k = p ++ utask k c :: q.
  Proof.
    intros k c Hc. unfold step_tasks. rewrite (zrange_app (k + 1) c) by lia. rewrite (zrange_cons c) by lia.
    rewrite map_app. cbn [map]. exists (ptask k :: map (fun c => utask k c) (zrange (k + 1) c)).
    eexists. cbn [app]. rewrite <- app_assoc. reflexivity.
  Qed.

  Lemma update_next : forall k c, deps_order (k_deps (utask k c)) (k_deps (utask (k + 1) c)).
  Proof.
    intros k c. apply (deps_by _ _ (dep_inout (tptr b A (k + 1) c)) (dep_inout (tptr b A (k + 1) c)));
      [do 3 right; left; reflexivity|do 2 right; left; reflexivity|reflexivity|left; discriminate].
  Qed.
  Lemma update_panel : forall k, deps_order (k_deps (utask k (k + 1))) (k_deps (ptask (k + 1))).
  Proof.
    intros k. apply (deps_by _ _ (dep_inout (tptr b A (k + 1) (k + 1))) (dep_inout (tptr b A (k + 1) (k + 1))));
      [do 3 right; left; reflexivity|left; reflexivity|reflexivity|left; discriminate].
  Qed.
  Lemma panel_update : forall k c, deps_order (k_deps (ptask k)) (k_deps (utask k c)).
  Proof.
    intros k c. apply (deps_by _ _ (dep_inout (tptr b A k k)) (dep_in (tptr b A k k)));
      [left; reflexivity|left; reflexivity|reflexivity|left; discriminate].
  Qed.

  Lemma chain : forall lo c, 0 <= lo -> c < T -> c < lo + d_kut A -> forall d k' y p l2, Z.of_nat d = k' - (lo + 1) -> k' <= c ->
    deps_order (k_deps (utask (k' - 1) c)) (k_deps y) ->
    linked (utask lo c) (l2 ++ flat_map step_tasks (zrange (lo + 1) k') ++ p) y.
  Proof.
    intros lo c Hlo HcT Hc. induction d as [|d IH]; intros k' y p l2 Hd Hk D.
    - apply ln_direct. replace (k' - 1) with lo in D by lia. exact D.
    - destruct (update_mid (k' - 1) c ltac:(lia)) as (p' & q' & E).
      rewrite (zrange_app (lo + 1) (k' - 1) k') by lia. rewrite (zrange_cons (k' - 1) k') by lia. rewrite (zrange_nil (k' - 1 + 1)) by lia.
      rewrite flat_map_app. cbn [flat_map]. rewrite E, app_nil_r, <- !app_assoc. cbn [app].
      rewrite (app_assoc (flat_map _ _)), (app_assoc l2). apply ln_trans.
      + apply IH; [lia|lia|]. replace (k' - 1) with (k' - 1 - 1 + 1) at 2 by lia. apply update_next.
      + apply ln_direct. exact D.
  Qed.

  Lemma blocks_klinked : forall d lo, Z.of_nat d = T - lo -> 0 <= lo -> klinked (flat_map step_tasks (zrange lo T)).
  Proof.
    induction d as [|d IH]; intros lo Hd Hlo.
    - rewrite zrange_nil by lia. intros l1 x l2 y l3 E. destruct l1; discriminate.
    - rewrite zrange_cons by lia. cbn [flat_map]. apply klinked_app.
      + apply korders_klinked. apply step_korders.
      + apply IH; lia.
      + intros l1 x l2 m1 y m2 EX EY HC.
        destruct (flat_map_mid _ _ _ _ _ _ _ EY) as (k & p & q & Hk & EK & ->).
        assert (IX : In x (step_tasks lo)) by (rewrite EX; apply in_elt).
        assert (IY : In y (step_tasks k)) by (rewrite EK; apply in_elt).
        destruct HC as (l & HC).
        assert (TX : k_reads x l \/ k_writes x l) by tauto. assert (TY : k_reads y l \/ k_writes y l) by tauto.
        (* y touches only columns from k on *)
        assert (YT : (exists c, k <= c /\ incol l c /\ (y = ptask k /\ c = k \/ exists c', k < c' < Z.min T (k + d_kut A) /\ y = utask k c' /\ (c = k \/ c = c'))) \/ insec l k).
        { destruct (in_step k y IY) as [->|[(c' & Hc' & ->)| ->]].
          - destruct (panel_touches k ltac:(lia) l TY) as [(c & -> & I)|S]; [left|right; assumption]. exists k. split; [lia|]. split; [assumption|]. left. auto.
          - destruct (update_touches k c' ltac:(lia) Hc' l TY) as [(c & C & I)|S]; [left|right; assumption]. exists c. split; [lia|]. split; [assumption|].
            right. exists c'. auto.
          - destruct (shift_touches k ltac:(lia) l TY) as [(c & [] & _)|S]. right. assumption. }
        assert (XT : (exists c, lo < c < Z.min T (lo + d_kut A) /\ incol l c /\ x = utask lo c) \/ incol l lo \/ insec l lo).
        { destruct (in_step lo x IX) as [->|[(c' & Hc' & ->)| ->]].
          - destruct (panel_touches lo ltac:(lia) l TX) as [(c & -> & I)|S]; auto.
          - destruct (update_touches lo c' ltac:(lia) Hc' l TX) as [(c & [->| ->] & I)|S]; auto. left. exists c'. auto.
          - destruct (shift_touches lo ltac:(lia) l TX) as [(c & [] & _)|S]. auto. }
        destruct YT as [(c & Hc & I & Y)|S].
        2:{ exfalso. destruct XT as [(c & _ & I & _)|[I|S']].
            - apply (insec_block l k S). apply (incol_block l c I).
            - apply (insec_block l k S). apply (incol_block l lo I).
            - pose proof (insec_fun l k lo S S'). lia. }
        destruct XT as [(c0 & Hc0 & I0 & ->)|[I'|S']].
        2:{ exfalso. pose proof (incol_fun l c lo ltac:(lia) ltac:(lia) I I'). lia. }
        2:{ exfalso. apply (insec_block l lo S'). apply (incol_block l c I). }
        pose proof (incol_fun l c0 c ltac:(lia) ltac:(lia) I0 I) as E. subst c0.
        assert (NE : forall p', linked (utask lo k) (l2 ++ flat_map step_tasks (zrange (lo + 1) k) ++ p') (ptask k) \/ c <> k).
        { intros p'. destruct (Z.eq_dec c k) as [->|N]; [left|right; assumption].
          apply (chain lo k ltac:(lia) ltac:(lia) ltac:(lia) (Z.to_nat (k - (lo + 1)))); [lia|lia|].
          pose proof (update_panel (k - 1)) as U. replace (k - 1 + 1) with k in U by lia. exact U. }
        destruct Y as [(-> & ->)|(c' & Hc' & -> & [->| ->])].
        * destruct (NE p) as [L|N]; [exact L|congruence].
        * (* the panel of column k comes before the update that reads it *)
          assert (EP : exists p', p = ptask k :: p').
          { unfold step_tasks in EK. destruct p as [|z p']; cbn [app] in EK.
            - exfalso. discriminate EK.
            - exists p'. pose proof (f_equal (hd z) EK) as EH. cbn [hd] in EH. rewrite EH. reflexivity. }
          destruct EP as (p' & ->). rewrite app_assoc. apply ln_trans.
          -- destruct (NE []) as [L|N]; [|congruence]. rewrite app_nil_r in L. exact L.
          -- apply ln_direct. apply panel_update.
        * apply (chain lo c' ltac:(lia) ltac:(lia) ltac:(lia) (Z.to_nat (k - (lo + 1)))); [lia|lia|].
          pose proof (update_next (k - 1) c') as U. replace (k - 1 + 1) with k in U by lia. exact U.
  Qed.

  Lemma gbtrf_klinked : klinked (map ck_task (pzgbtrf bigger b A pI ib mpt)).
  Proof.
    rewrite gbtrf_tasks. destruct (Z_lt_le_dec 0 T) as [H|H].
    - apply (blocks_klinked (Z.to_nat T)); lia.
    - rewrite zrange_nil by lia. intros l1 x l2 y l3 E. destruct l1; discriminate.
  Qed.

  Lemma gbtrf_fail_chain : 1 < d_kut A -> fail_chain (pzgbtrf bigger b A pI ib mpt).
  Proof.
    intros HK. apply (ch_fail_chain _ None). rewrite <- (app_nil_r (pzgbtrf bigger b A pI ib mpt)).
    assert (E : pzgbtrf bigger b A pI ib mpt = flat_map (fun k => gb_panel bigger b A pI ib mpt k ::
      map sure (map (fun c => utask k c) (zrange (k + 1) (Z.min T (k + d_kut A))) ++ [stask k])) (zrange 0 T)).
    { unfold pzgbtrf. rewrite (gd_mt _ _ _ _ _ _ HA), (gd_nt _ _ _ _ _ _ HA). fold T. rewrite Z.min_id. apply flat_map_ext. intros k.
      rewrite map_app, map_map. reflexivity. }
    rewrite E. apply ch_blocks; [reflexivity|intros [[a l]|]; exact I| |auto].
    intros k H1 H2. rewrite (zrange_cons (k + 1)) by lia. cbn [map app].
    apply (linked_via _ (utask k (k + 1)) _ []); [apply panel_update|apply update_panel].
  Qed.

  (* the tasks write the tile columns and the pivots *)
  Lemma gbtrf_writes : forall x l, In x (pzgbtrf bigger b A pI ib mpt) -> k_writes (ck_task x) l ->
    (exists i j, tbe A nb n i j /\ l = gE A b i j) \/ ipiv_sec pI 0 n l.
  Proof.
    intros x l Hx HW. apply (in_map ck_task) in Hx. rewrite gbtrf_tasks in Hx. apply in_flat_map in Hx.
    destruct Hx as (k & Hk & Hx). apply in_zrange in Hk.
    assert (S : forall q, q <= w k -> ipiv_sec (gb_ipiv A pI k) 0 q l -> ipiv_sec pI 0 n l).
    { intros q Hq (t & Ht & ->). exists (k * nb + t). split; [|unfold ipiv_at, gb_ipiv; cbn [fst snd]; rewrite (gf_mb A nb n kl ku HA); f_equal; lia].
      unfold w, pw in Hq. pose proof (gf_pos A nb n kl ku HA). nia. }
    assert (I : forall c, incol l c -> exists i j, tbe A nb n i j /\ l = gE A b i j) by (intros c (i & j & TB & _ & ->); eauto).
    pose proof (gf_kut1 A BK).
    destruct (in_step k _ Hx) as [E|[(c & Hc & E)|E]]; rewrite E in HW.
    - destruct HW as [HW|HW]; [left; apply (I k); apply (part_incol k k); try assumption; lia|right].
      apply (S (Z.min (gb_rows A k) (tile_nview A k))); [|assumption]. rewrite (gf_nv A nb n kl ku HA) by assumption. fold (w k). lia.
    - left. apply (I c). apply (update_writes k c); try assumption; lia.
    - right. apply (S (Z.min (gb_rows A k) (tile_nview A k))); [|exact HW]. rewrite (gf_nv A nb n kl ku HA) by assumption. fold (w k). lia.
  Qed.
End Link.
