From Coq Require Import ZArith List Bool Lia Permutation.
From Verif Require Import Base NumModel TaskModel TaskSpec TaskProofs DescModel DescSpec DescDriverModel DescProofs
  DescProofs3 DescProofs4 MatModel MatSpec MatProofs RegionProofs LayoutModel LayoutProofs LayoutProofs2 DriverModel DriverSpec
  OpProofs GemmProofs GemmDriverProofs LasetModel LasetProofs EwModel EwSpec EwProofs EwDriverProofs ExecProofs GbsetModel GbsetSpec.
Import ListNotations.
Open Scope Z_scope.

(* the places one call sets to zero *)
Definition hits (p : loc) (c : laset_call) (l : loc) : Prop :=
  in_user (fst p, snd p + c_off c) (c_ld c) (c_rows c) (c_cols c) l.
Definition call_ok (c : laset_call) : Prop := 0 <= c_rows c /\ 0 <= c_cols c /\ Z.max 1 (c_rows c) <= c_ld c.

Definition set0 {N : numbers} (b : Z) (P : loc -> Prop) (M M' : mem N) : Prop :=
  forall l, fst l <> b -> (P l -> M' l = n0) /\ (~ P l -> M' l = M l).

Lemma in_user_dec : forall p ld m n l, m <= ld -> {in_user p ld m n l} + {~ in_user p ld m n l}.
Proof.
  intros p ld m n l Hld. destruct (Z_le_dec m 0) as [Hm|Hm].
  { right. intros (i & j & Hi & _). lia. }
  destruct (Z.eq_dec (fst l) (fst p)) as [E|E].
  2:{ right. intros (i & j & _ & _ & ->). apply E. reflexivity. }
  remember (snd l - snd p) as o eqn:Eo.
  assert (D := Z.div_mod o ld ltac:(lia)). assert (D' := Z.mod_pos_bound o ld ltac:(lia)).
  destruct (Z_lt_dec (o mod ld) m) as [H1|H1];
    [destruct (Z_le_dec 0 (o / ld)) as [H2|H2]; [destruct (Z_lt_dec (o / ld) n) as [H3|H3]|]|].
  - left. exists (o mod ld), (o / ld). repeat split; try lia. destruct l as [lb lo]. cbn in *. unfold at_. cbn.
    rewrite E. f_equal. lia.
  - right. intros (i & j & Hi & Hj & ->). cbn in Eo. assert (o / ld = j); [|lia].
    symmetry. apply (Z.div_unique_pos o ld j i); lia.
  - right. intros (i & j & Hi & Hj & ->). cbn in Eo. assert (o / ld = j); [|lia].
    symmetry. apply (Z.div_unique_pos o ld j i); lia.
  - right. intros (i & j & Hi & Hj & ->). cbn in Eo. assert (o mod ld = i); [|lia].
    symmetry. apply (Z.mod_unique_pos o ld j i); lia.
Qed.

Section Calls.
  Context {N : numbers}.
  Variables (nb b : Z) (p : loc).
  Hypotheses (Hnb : 0 < nb) (Hb : fst p <> b).

  Definition run_call (c : laset_call) : driver N :=
    zlaset nb PlasmaGeneral (c_rows c) (c_cols c) n0 n0 (fst p, snd p + c_off c) (c_ld c) b.

  Lemma call_ensures : forall c (M : mem N), call_ok c ->
    driver_ensures (run_call c) M (fun M' => set0 b (hits p c) M M').
  Proof.
    intros c M (H1 & H2 & H3).
    pose proof (zlaset_main N nb PlasmaGeneral (c_rows c) (c_cols c) n0 n0 (fst p, snd p + c_off c) (c_ld c) b M
      Hnb (or_introl eq_refl) H1 H2 H3 Hb) as Z0.
    assert (G : forall M', 
      (forall i j, in_matrix (c_rows c) (c_cols c) i j -> in_part PlasmaGeneral i j -> i <> j ->
         ul M' (fst p, snd p + c_off c) (c_ld c) i j = n0) /\
      (forall i, in_matrix (c_rows c) (c_cols c) i i -> ul M' (fst p, snd p + c_off c) (c_ld c) i i = n0) /\
      (forall i j, in_matrix (c_rows c) (c_cols c) i j -> ~ in_part PlasmaGeneral i j ->
         ul M' (fst p, snd p + c_off c) (c_ld c) i j = ul M (fst p, snd p + c_off c) (c_ld c) i j) /\
      (forall l, fst l <> b -> ~ in_user (fst p, snd p + c_off c) (c_ld c) (c_rows c) (c_cols c) l -> M' l = M l) ->
      set0 b (hits p c) M M').
    { intros M' (P1 & P2 & _ & P4) l Hl. split.
      - intros (i & j & Hi & Hj & ->). destruct (Z.eq_dec i j) as [->|E].
        + apply P2. split; assumption.
        + apply P1; [split; assumption|left; reflexivity|assumption].
      - intros H. apply P4; assumption. }
    unfold run_call. destruct (zlaset _ _ _ _ _ _ _ _ _); cbn in *.
    - destruct Z0 as [Z1 Z2]. split; [assumption|]. apply G. exact Z2.
    - eapply region_mono; [|exact Z0]. exact G.
  Qed.

  Lemma hits_dec : forall l cs, Forall call_ok cs ->
    {exists c, In c cs /\ hits p c l} + {~ exists c, In c cs /\ hits p c l}.
  Proof.
    intros l. induction cs as [|c cs IH]; intros HF.
    - right. intros (c & [] & _).
    - assert (HF1 := Forall_inv HF). assert (HF2 := Forall_inv_tail HF). destruct (IH HF2) as [H|H].
      + left. destruct H as (c' & H1 & H2). exists c'. split; [right|]; assumption.
      + destruct HF1 as (_ & _ & HL).
        destruct (in_user_dec (fst p, snd p + c_off c) (c_ld c) (c_rows c) (c_cols c) l) as [D|D]; [lia| |].
        * left. exists c. split; [left; reflexivity|exact D].
        * right. intros (c' & [->|H1] & H2); [apply D; exact H2|apply H; exists c'; auto].
  Qed.

  Lemma set0_cons : forall c cs (M M1 M2 : mem N), Forall call_ok cs -> set0 b (hits p c) M M1 ->
    set0 b (fun l => exists c, In c cs /\ hits p c l) M1 M2 ->
    set0 b (fun l => exists c', In c' (c :: cs) /\ hits p c' l) M M2.
  Proof.
    intros c cs M M1 M2 HF H H2 l Hl.
    destruct (H l Hl) as [A1 A2]. destruct (H2 l Hl) as [B1 B2].
    destruct (hits_dec l cs HF) as [D|D].
    - split; [intros _; apply B1; exact D|]. intros ND. exfalso. apply ND. destruct D as (c' & D1 & D2).
      exists c'. split; [right|]; assumption.
    - rewrite B2 by assumption. split.
      + intros (c' & [->|D1] & D2); [apply A1; assumption|]. exfalso. apply D. exists c'. auto.
      + intros ND. apply A2. intros D1. apply ND. exists c. split; [left; reflexivity|assumption].
  Qed.

  Lemma calls_ensures : forall cs (M : mem N) (Q : mem N -> Prop), Forall call_ok cs ->
    (forall M', set0 b (fun l => exists c, In c cs /\ hits p c l) M M' -> Q M') ->
    calls_ensure (map run_call cs) M Q.
  Proof.
    induction cs as [|c cs IH]; intros M Q HF HQ; cbn [map calls_ensure].
    - apply HQ. intros l Hl. split; [intros (c & [] & _)|reflexivity].
    - apply Forall_cons_iff in HF. destruct HF as [HC HF].
      assert (G : forall M', set0 b (hits p c) M M' -> calls_ensure (map run_call cs) M' Q).
      { intros M' H. apply IH; [assumption|]. intros M2 H2. apply HQ. eapply set0_cons; eauto. }
      pose proof (call_ensures c M HC) as Z0. destruct (run_call c).
      + apply G. apply Z0.
      + eapply region_mono; [|exact Z0]. exact G.
  Qed.

  (* the calls can be executed *)
  Lemma call_possible : forall c (M : mem N) Q, call_ok c ->
    match run_call c with Returns _ => Q M | Runs ks => region_ensures ks M Q end ->
    exists M', set0 b (hits p c) M M' /\ Q M'.
  Proof.
    intros c M Q HC HQ. pose proof (call_ensures c M HC) as Z0. destruct HC as (H1 & H2 & H3).
    assert (KG : forall ks, run_call c = Runs ks -> Forall kgood ks).
    { unfold run_call, zlaset. intros ks. change (negb (ew_uplo3 PlasmaGeneral)) with false. cbv iota.
      replace (c_rows c <? 0) with false by (symmetry; apply Z.ltb_ge; lia).
      replace (c_cols c <? 0) with false by (symmetry; apply Z.ltb_ge; lia).
      replace (c_ld c <? Z.max 1 (c_rows c)) with false by (symmetry; apply Z.ltb_ge; lia).
      destruct (Z.min (c_cols c) (c_rows c) =? 0); [discriminate|].
      destruct (ge_create_succeeds nb _ _ Hnb H1 H2) as (A & EA & _). rewrite EA. cbn [with_desc].
      destruct (ge_create_dn _ _ _ _ _ EA) as (DA & A1 & A2 & _).
      assert (HT : d_type A <> PlasmaGeneralBand).
      { unfold ge_create in EA.
        destruct (general_create_ok _ _ _ _ _ _ _ _ _ _ _ (Z.le_refl 0) (Z.le_refl 0) EA) as (G & _).
        rewrite (gk_type _ G). discriminate. }
      intros E. injection E as <-. rewrite !Forall_app. repeat split.
      - apply (in_kgood nb); assumption.
      - apply (pzlaset_kgood nb); auto.
      - apply (out_kgood nb); auto. lia. }
    destruct (run_call c) as [code|ks].
    - exists M. split; [apply Z0|exact HQ].
    - specialize (KG ks eq_refl). cbn in Z0.
      assert (Z1 : region_ensures ks M (fun M' => set0 b (hits p c) M M' /\ Q M')).
      { destruct Z0 as [E1 Z0]. destruct HQ as [_ HQ]. split; [assumption|].
        intros ts s I S. destruct (Z0 ts s I S) as [A1 A2]. destruct (HQ ts s I S) as [B1 B2].
        split; [intros F; split; auto|assumption]. }
      apply (order_possible N n0 ks (seq 0 (length ks))) in Z1; auto.
      + destruct Z1 as (M' & _ & HM). exists M'. exact HM.
      + intros o1 i o2 j di dj E Hj Hlt. exfalso.
        assert (S : forall n s o1 i o2, seq s n = o1 ++ i :: o2 -> In j o2 -> (i < j)%nat).
        { clear. induction n as [|n IH]; intros s o1 i o2 E Hj; [destruct o1; discriminate|].
          destruct o1 as [|a o1]; cbn in E; injection E as <- E.
          - rewrite <- E in Hj. apply in_seq in Hj. lia.
          - eapply IH; eauto. }
        specialize (S _ _ _ _ _ E Hj). lia.
  Qed.

  Lemma calls_possible : forall cs (M : mem N) (Q : mem N -> Prop), Forall call_ok cs ->
    calls_ensure (map run_call cs) M Q ->
    exists M', set0 b (fun l => exists c, In c cs /\ hits p c l) M M' /\ Q M'.
  Proof.
    induction cs as [|c cs IH]; intros M Q HF HQ; cbn [map calls_ensure] in HQ.
    - exists M. split; [|exact HQ]. intros l Hl. split; [intros (c & [] & _)|reflexivity].
    - apply Forall_cons_iff in HF. destruct HF as [HC HF].
      destruct (call_possible c M (fun M' => calls_ensure (map run_call cs) M' Q) HC) as (M1 & H1 & H2).
      { destruct (run_call c); exact HQ. }
      destruct (IH M1 Q HF H2) as (M2 & H3 & H4). exists M2. split; [|exact H4]. eapply set0_cons; eauto.
  Qed.
End Calls.

(* ------------------------------------------------------------------ *)
(* which elements the calls reach                                        *)

Definition reach (cs : list laset_call) (o : Z) : Prop :=
  exists c x y, In c cs /\ 0 <= x < c_rows c /\ 0 <= y < c_cols c /\ o = c_off c + x + y * c_ld c.
Definition outside (m n kl ku lda o : Z) : Prop :=
  exists i j, in_matrix m n i j /\ off_band kl ku i j /\ o = i + j * lda.

Lemma hits_reach : forall p cs l, (exists c, In c cs /\ hits p c l) <-> fst l = fst p /\ reach cs (snd l - snd p).
Proof.
  intros p cs [lb lo]. cbn [fst snd]. split.
  - intros (c & Hc & x & y & Hx & Hy & E). unfold at_ in E. cbn in E. injection E as -> ->.
    split; [reflexivity|]. exists c, x, y. repeat split; try assumption; try apply Hx; try apply Hy. lia.
  - intros (-> & c & x & y & Hc & Hx & Hy & E). exists c. split; [assumption|]. exists x, y.
    repeat split; try apply Hx; try apply Hy. unfold at_. cbn. f_equal. lia.
Qed.

Lemma in_down : forall e x, In x (down_to_1 e) <-> 1 <= x <= e.
Proof. intros e x. unfold down_to_1. rewrite <- in_rev, in_zrange. lia. Qed.

Definition gbset_good (m n kl ku lda : Z) : Prop :=
  m <= kl + ku \/ (lda = m /\ (m <= n \/ kl <= 1 \/ kl + ku <= n)).

Ltac inl := repeat rewrite in_app_iff.

Lemma tall_reach : forall m n kl ku lda o, 0 <= kl < m -> 0 <= ku < n -> n <= m -> m <= lda ->
  gbset_good m n kl ku lda -> reach (gbset_tall m n kl ku lda) o -> outside m n kl ku lda o.
Proof.
  intros m n kl ku lda o Hkl Hku Hmn Hlda HG (c & x & y & Hc & Hx & Hy & ->).
  unfold gbset_tall in Hc. cbv zeta in Hc. rewrite !in_app_iff in Hc. unfold gbset_good in HG.
  destruct Hc as [Hc|[Hc|[Hc|Hc]]].
  - destruct (Z.ltb_spec (kl + ku) m) as [L|L]; [|destruct Hc]. destruct Hc as [<-|[]]. cbn [c_rows c_cols c_off c_ld] in *.
    destruct (Z_lt_dec (1 + kl + x + y) m) as [R|R].
    + exists (1 + kl + x + y), y. unfold in_matrix, off_band. repeat split; lia.
    + exists (1 + kl + x + y - m), (y + 1). unfold in_matrix, off_band. repeat split; lia.
  - apply in_map_iff in Hc. destruct Hc as (e & <- & He). apply in_down in He. cbn [c_rows c_cols c_off c_ld] in *.
    exists (m - e + y), y. unfold in_matrix, off_band.
    destruct (Z.ltb_spec e n); destruct (Z.ltb_spec (kl + ku) m); repeat split; lia.
  - apply in_map_iff in Hc. destruct Hc as (e & <- & He). apply in_down in He. cbn [c_rows c_cols c_off c_ld] in *.
    exists y, (n - e + y). unfold in_matrix, off_band.
    destruct (Z.ltb_spec (kl + ku) m); repeat split; lia.
  - destruct (Z.ltb_spec (n + kl) m) as [L|L]; [|destruct Hc]. destruct Hc as [<-|[]]. cbn [c_rows c_cols c_off c_ld] in *.
    assert (y = 0) by lia. subst y.
    exists (n + kl + x), (n - 1). unfold in_matrix, off_band. repeat split; lia.
Qed.

Lemma reach_tall : forall m n kl ku lda o, 0 <= kl < m -> 0 <= ku < n -> n <= m -> m <= lda ->
  gbset_good m n kl ku lda -> outside m n kl ku lda o -> reach (gbset_tall m n kl ku lda) o.
Proof.
  intros m n kl ku lda o Hkl Hku Hmn Hlda HG (i & j & (Hi & Hj) & HO & ->).
  unfold gbset_good in HG. unfold gbset_tall, reach. cbv zeta.
  destruct (Z.ltb_spec (kl + ku) m) as [L|L].
  - destruct HO as [HO|HO].
    + destruct (Z_le_dec (i - j) (m - ku)) as [Q|Q].
      * destruct (Z.eq_dec j (n - 1)) as [E|E].
        -- eexists. exists (i - n - kl), 0. split; [|].
           { rewrite !in_app_iff. right; right; right. replace (n + kl <? m) with true by (symmetry; apply Z.ltb_lt; lia).
             left. reflexivity. }
           cbn [c_rows c_cols c_off c_ld]. repeat split; lia.
        -- eexists. exists (i - j - kl - 1), j. split; [left; reflexivity|].
           cbn [c_rows c_cols c_off c_ld]. repeat split; lia.
      * eexists. exists 0, j. split.
        { rewrite !in_app_iff. right; left. apply in_map. apply in_down. instantiate (1 := m - (i - j)). lia. }
        cbn [c_rows c_cols c_off c_ld]. destruct (Z.ltb_spec (m - (i - j)) n); repeat split; lia.
    + destruct (Z_le_dec (j - i) (m - kl)) as [Q|Q].
      * eexists. exists (i - j + m - kl), (j - 1). split; [left; reflexivity|].
        cbn [c_rows c_cols c_off c_ld]. repeat split; lia.
      * eexists. exists 0, i. split.
        { rewrite !in_app_iff. right; right; left. apply in_map. apply in_down. instantiate (1 := n - (j - i)). lia. }
        cbn [c_rows c_cols c_off c_ld]. repeat split; lia.
  - destruct HO as [HO|HO].
    + eexists. exists 0, j. split.
      { rewrite !in_app_iff. right; left. apply in_map. apply in_down. instantiate (1 := m - (i - j)). lia. }
      cbn [c_rows c_cols c_off c_ld]. destruct (Z.ltb_spec (m - (i - j)) n); repeat split; lia.
    + eexists. exists 0, i. split.
      { rewrite !in_app_iff. right; right; left. apply in_map. apply in_down. instantiate (1 := n - (j - i)). lia. }
      cbn [c_rows c_cols c_off c_ld]. repeat split; lia.
Qed.

Lemma wide_reach : forall m n kl ku lda o, 0 <= kl < m -> 0 <= ku < n -> m < n -> m <= lda ->
  gbset_good m n kl ku lda -> reach (gbset_wide m n kl ku lda) o -> outside m n kl ku lda o.
Proof.
  intros m n kl ku lda o Hkl Hku Hmn Hlda HG (c & x & y & Hc & Hx & Hy & ->).
  unfold gbset_wide in Hc. cbv zeta in Hc. rewrite !in_app_iff in Hc. unfold gbset_good in HG.
  destruct Hc as [Hc|[Hc|[Hc|Hc]]].
  - destruct (Z.ltb_spec (kl + ku) m) as [L|L]; [|destruct Hc]. destruct Hc as [<-|[]]. cbn [c_rows c_cols c_off c_ld] in *.
    destruct (Z_lt_dec (1 + kl + x + y) m) as [R|R].
    + exists (1 + kl + x + y), y. unfold in_matrix, off_band. repeat split; lia.
    + exists (1 + kl + x + y - m), (y + 1). unfold in_matrix, off_band. repeat split; lia.
  - apply in_map_iff in Hc. destruct Hc as (e & <- & He). apply in_down in He. cbn [c_rows c_cols c_off c_ld] in *.
    exists (m - e + y), y. unfold in_matrix, off_band.
    destruct (Z.ltb_spec (kl + ku) m); repeat split; lia.
  - apply in_map_iff in Hc. destruct Hc as (e & <- & He). apply in_down in He. cbn [c_rows c_cols c_off c_ld] in *.
    exists y, (m - e + y). unfold in_matrix, off_band.
    destruct (Z.ltb_spec (kl + ku) m); repeat split; lia.
  - apply in_flat_map in Hc. destruct Hc as (i & Hi & Hc). apply in_zrange in Hi. cbv zeta in Hc.
    remember (if 0 <? i - (m - 1) + ku then i - (m - 1) + ku else 0) as bl eqn:EB.
    destruct (Z.leb_spec (n - (m + bl)) 0) as [L|L]; [destruct Hc|]. destruct Hc as [<-|[]].
    cbn [c_rows c_cols c_off c_ld] in *.
    exists i, (m + bl + y). unfold in_matrix, off_band.
    destruct (Z.ltb_spec 0 (i - (m - 1) + ku)); repeat split; lia.
Qed.

Lemma reach_wide : forall m n kl ku lda o, 0 <= kl < m -> 0 <= ku < n -> m < n -> m <= lda ->
  gbset_good m n kl ku lda -> outside m n kl ku lda o -> reach (gbset_wide m n kl ku lda) o.
Proof.
  intros m n kl ku lda o Hkl Hku Hmn Hlda HG (i & j & (Hi & Hj) & HO & ->).
  unfold gbset_good in HG. unfold gbset_wide, reach. cbv zeta.
  destruct (Z_lt_dec j m) as [J|J].
  2:{ remember (if 0 <? i - (m - 1) + ku then i - (m - 1) + ku else 0) as bl eqn:EB.
      assert (HB : 0 <= bl <= j - m) by (unfold off_band in HO; destruct (Z.ltb_spec 0 (i - (m - 1) + ku)); lia).
      exists (Call 1 (n - (m + bl)) (lda * (m + bl) + i) lda), 0, (j - m - bl). split.
      - rewrite !in_app_iff. right; right; right. apply in_flat_map. exists i. split; [apply in_zrange; lia|].
        rewrite <- EB. destruct (Z.leb_spec (n - (m + bl)) 0) as [L|L]; [lia|]. left. reflexivity.
      - cbn [c_rows c_cols c_off c_ld]. repeat split; lia. }
  destruct (Z.ltb_spec (kl + ku) m) as [L|L].
  - destruct HO as [HO|HO].
    + destruct (Z_le_dec (i - j) (m - ku)) as [Q|Q].
      * eexists. exists (i - j - kl - 1), j. split; [left; reflexivity|].
        cbn [c_rows c_cols c_off c_ld]. repeat split; lia.
      * eexists. exists 0, j. split.
        { rewrite !in_app_iff. right; left. apply in_map. apply in_down. instantiate (1 := m - (i - j)). lia. }
        cbn [c_rows c_cols c_off c_ld]. repeat split; lia.
    + destruct (Z_le_dec (j - i) (m - kl)) as [Q|Q].
      * eexists. exists (i - j + m - kl), (j - 1). split; [left; reflexivity|].
        cbn [c_rows c_cols c_off c_ld]. repeat split; lia.
      * eexists. exists 0, i. split.
        { rewrite !in_app_iff. right; right; left. apply in_map. apply in_down. instantiate (1 := m - (j - i)). lia. }
        cbn [c_rows c_cols c_off c_ld]. repeat split; lia.
  - destruct HO as [HO|HO].
    + eexists. exists 0, j. split.
      { rewrite !in_app_iff. right; left. apply in_map. apply in_down. instantiate (1 := m - (i - j)). lia. }
      cbn [c_rows c_cols c_off c_ld]. repeat split; lia.
    + eexists. exists 0, i. split.
      { rewrite !in_app_iff. right; right; left. apply in_map. apply in_down. instantiate (1 := m - (j - i)). lia. }
      cbn [c_rows c_cols c_off c_ld]. repeat split; lia.
Qed.

Lemma calls_legal : forall m n kl ku lda, m <= lda -> Forall call_ok (gbset_calls m n kl ku lda).
Proof.
  intros m n kl ku lda Hlda. unfold gbset_calls.
  destruct ((m =? 0) || (n =? 0)) eqn:E0; [constructor|].
  destruct ((kl <? 0) || (m - 1 <? kl)) eqn:E1; [constructor|].
  destruct ((ku <? 0) || (n - 1 <? ku)) eqn:E2; [constructor|].
  rewrite orb_false_iff in E0, E1, E2. rewrite !Z.ltb_ge in E1, E2.
  destruct (Z.leb_spec n m) as [L|L]; unfold gbset_tall, gbset_wide; cbv zeta; rewrite !Forall_app;
    unfold call_ok; repeat split.
  - destruct (Z.ltb_spec (kl + ku) m); constructor; [|constructor]. cbn. lia.
  - apply Forall_map, Forall_forall. intros e He. apply in_down in He. cbn. destruct (Z.ltb_spec e n); lia.
  - apply Forall_map, Forall_forall. intros e He. apply in_down in He. cbn. lia.
  - destruct (Z.ltb_spec (n + kl) m); constructor; [|constructor]. cbn. lia.
  - destruct (Z.ltb_spec (kl + ku) m); constructor; [|constructor]. cbn. lia.
  - apply Forall_map, Forall_forall. intros e He. apply in_down in He. cbn. lia.
  - apply Forall_map, Forall_forall. intros e He. apply in_down in He. cbn. lia.
  - apply Forall_forall. intros c Hc. apply in_flat_map in Hc. destruct Hc as (i & Hi & Hc). cbv zeta in Hc.
    match type of Hc with In _ (if ?b then _ else _) => destruct b eqn:EQ end; [destruct Hc|].
    destruct Hc as [<-|[]]. apply Z.leb_gt in EQ. cbn [c_rows c_cols c_ld]. lia.
Qed.

Lemma zgbset_main : forall (N : numbers) nb m n kl ku (pA : loc) lda b (M : mem N),
  0 < nb -> 0 <= kl < m -> 0 <= ku < n -> m <= lda -> fst pA <> b ->
  m <= kl + ku \/ (lda = m /\ (m <= n \/ kl <= 1 \/ kl + ku <= n)) ->
  calls_ensure (zgbset nb m n kl ku pA lda b) M (fun M' =>
    (forall i j, in_matrix m n i j -> off_band kl ku i j -> ul M' pA lda i j = n0) /\
    (forall i j, in_matrix m n i j -> ~ off_band kl ku i j -> ul M' pA lda i j = ul M pA lda i j) /\
    (forall l, fst l <> b -> ~ in_user pA lda m n l -> M' l = M l)).
Proof.
  intros N nb m n kl ku pA lda b M Hnb Hkl Hku Hlda Hb HG. unfold zgbset.
  apply (calls_ensures nb b pA Hnb Hb); [apply calls_legal; assumption|].
  intros M' HM.
  assert (HR : forall o, reach (gbset_calls m n kl ku lda) o <-> outside m n kl ku lda o).
  { intros o. unfold gbset_calls.
    replace (m =? 0) with false by (symmetry; apply Z.eqb_neq; lia).
    replace (n =? 0) with false by (symmetry; apply Z.eqb_neq; lia).
    replace (kl <? 0) with false by (symmetry; apply Z.ltb_ge; lia).
    replace (ku <? 0) with false by (symmetry; apply Z.ltb_ge; lia).
    replace (m - 1 <? kl) with false by (symmetry; apply Z.ltb_ge; lia).
    replace (n - 1 <? ku) with false by (symmetry; apply Z.ltb_ge; lia). cbn [orb].
    destruct (Z.leb_spec n m); split.
    - apply tall_reach; auto.
    - apply reach_tall; auto.
    - apply wide_reach; auto.
    - apply reach_wide; auto. }
  assert (HS : forall i j, snd (at_ pA lda i j) - snd pA = i + j * lda) by (intros; unfold at_; cbn; lia).
  split; [|split].
  - intros i j HI HO. unfold ul. apply (HM (at_ pA lda i j)); [exact Hb|]. apply hits_reach. split; [reflexivity|].
    rewrite HS. apply HR. exists i, j. auto.
  - intros i j [Hi Hj] HO. unfold ul. apply (HM (at_ pA lda i j)); [exact Hb|]. intros H. apply hits_reach in H.
    destruct H as [_ H]. rewrite HS in H. apply HR in H. destruct H as (i' & j' & [Hi' Hj'] & HO' & E).
    apply HO. assert (j = j') by nia. subst j'. assert (i = i') by lia. subst i'. exact HO'.
  - intros l Hl HU. apply (HM l Hl). intros H. apply hits_reach in H. destruct H as [H1 H2].
    apply HR in H2. destruct H2 as (i & j & [Hi Hj] & _ & E). apply HU. exists i, j. repeat split; try apply Hi; try apply Hj.
    destruct l as [lb lo]. unfold at_. cbn in *. rewrite H1. f_equal. lia.
Qed.
