(* Proofs about plasma_tree_block_greedy. *)
From Coq Require Import ZArith List Bool Lia Psatz.
From Verif Require Import Base TreeModel TreeSpec TreeProofs TreeProofs2.
Import ListNotations.
Open Scope Z_scope.

Lemma rev_zrange : forall n, 0 <= n -> rev (zrange 0 n) = map (fun k => n - 1 - k) (zrange 0 n).
Proof.
  assert (X : forall n a b, (length (zrange a b) = n)%nat -> rev (zrange a b) = map (fun k => a + b - 1 - k) (zrange a b)).
  { induction n as [|n IH]; intros a b L.
    - destruct (zrange a b); [reflexivity|discriminate].
    - rewrite zrange_length in L. replace b with (b - 1 + 1) at 1 by lia. rewrite zrange_snoc by lia.
      rewrite rev_app_distr. cbn [rev app]. rewrite IH by (rewrite zrange_length; lia).
      rewrite (zrange_cons a b) by lia. cbn [map]. f_equal; [lia|].
      clear. assert (G : forall n a, map (fun k => a + (b - 1) - 1 - k) (zrange_nat a n) = map (fun k => a + b - 1 - k) (zrange_nat (a + 1) n)).
      { intros n a0. 
        assert (G2 : forall n c d, map (fun k => c - k) (zrange_nat d n) = map (fun k => c + 1 - k) (zrange_nat (d + 1) n)).
        { induction n0 as [|n0 IH]; intros c d; cbn [zrange_nat map]; [reflexivity|]. f_equal; [lia|]. apply IH. }
        rewrite (map_ext _ (fun k => (a0 + b - 2) - k)) by (intros; lia). rewrite G2. apply map_ext. intros; lia. }
      unfold zrange. replace (Z.to_nat (b - (a + 1))) with (Z.to_nat (b - 1 - a)) by lia. apply G. }
  intros n N. rewrite (X _ 0 n eq_refl). apply map_ext. intros; lia.
Qed.

Lemma flat_map_map' {A B C} (g : A -> B) (f : B -> list C) l : flat_map f (map g l) = flat_map (fun x => f (g x)) l.
Proof. induction l; cbn; congruence. Qed.

Lemma flat_map_ext' {A B} (f g : A -> list B) l : (forall x, In x l -> f x = g x) -> flat_map f l = flat_map g l.
Proof.
  induction l as [|x l IH]; intros H; [reflexivity|]. cbn. rewrite H by now left. rewrite IH; [reflexivity|].
  intros y Y. apply H. now right.
Qed.

(* sums of counters *)
Definition csum (f : Z -> Z) (l : list Z) : Z := fold_right (fun c a => f c + a) 0 l.

Lemma csum_le f g l : (forall c, In c l -> f c <= g c) -> csum f l <= csum g l.
Proof.
  induction l as [|x l IH]; intros H; cbn [csum fold_right]; [lia|].
  specialize (H x) as H1. cbn [In] in H1. assert (csum f l <= csum g l) by (apply IH; intros; apply H; now right).
  unfold csum in *. specialize (H1 (or_introl eq_refl)). lia.
Qed.

Lemma csum_lt f g l x : (forall c, In c l -> f c <= g c) -> In x l -> f x < g x -> csum f l < csum g l.
Proof.
  induction l as [|y l IH]; intros H I L; [destruct I|]. cbn [csum fold_right].
  assert (H1 : f y <= g y) by (apply H; now left).
  assert (H2 : csum f l <= csum g l) by (apply csum_le; intros; apply H; now right).
  destruct I as [->|I].
  - unfold csum in *. lia.
  - assert (H3 : csum f l < csum g l) by (apply IH; auto; intros; apply H; now right). unfold csum in *. lia.
Qed.

Lemma csum_bound f l B : (forall c, In c l -> f c <= B) -> csum f l <= B * Z.of_nat (length l).
Proof.
  induction l as [|x l IH]; intros H; cbn [csum fold_right length]; [lia|].
  assert (H1 : f x <= B) by (apply H; now left).
  assert (H2 : csum f l <= B * Z.of_nat (length l)) by (apply IH; intros; apply H; now right).
  unfold csum in *. lia.
Qed.

Section Block.
Variables (mt mn b lops : Z).
Hypothesis Hmn : 1 <= mn <= mt.
Hypothesis Hb : 1 <= b.
Hypothesis Hl : lops = (mt * mn - (mn - 1) * mn / 2) + (mt * mn - (mn + 1) * mn / 2).

Let bs : Z -> Z := fun _ => b.
Let sc (c : Z) : Z := get_super_tiles (mt - c) b.

Let Hbs : forall c, 0 <= c < mn -> 1 <= bs c.
Proof. intros. exact Hb. Qed.

Lemma head_b c k : head mt bs c k = c + (sc c - 1 - k) * b.
Proof. reflexivity. Qed.

Definition shifted (j : Z) : bool := negb ((mt - (j - 1)) mod b =? 1) && (1 <? b).

Definition newT (NT NZ : Z -> Z) (j : Z) : Z :=
  if j =? 0 then sc 0
  else if shifted j && (NZ (j - 1) <? NT (j - 1)) then NZ (j - 1) + 1 else NZ (j - 1).

Lemma sc_shift j : 0 < j < mn -> sc j = if shifted j then sc (j - 1) else sc (j - 1) - 1.
Proof.
  intros J. unfold sc, get_super_tiles, shifted.
  remember (mt - (j - 1)) as n eqn:E. assert (2 <= n) by lia. replace (mt - j) with (n - 1) by lia.
  pose proof (Z.div_mod n b ltac:(lia)) as D. pose proof (Z.mod_pos_bound n b ltac:(lia)) as M.
  assert (Q : forall q r, n = b * q + r -> 1 <= r <= b -> (n + (b - 1)) / b = q + 1).
  { intros q r H1 H2. symmetry. apply (Z.div_unique _ _ _ (r - 1)); lia. }
  assert (Q' : forall q r, n - 1 = b * q + r -> 1 <= r <= b -> (n - 1 + (b - 1)) / b = q + 1).
  { intros q r H1 H2. symmetry. apply (Z.div_unique _ _ _ (r - 1)); lia. }
  destruct (Z.eq_dec b 1) as [B1|B1].
  { subst b. rewrite !Z.div_1_r. cbn. rewrite andb_false_r. lia. }
  destruct (Z.eq_dec (n mod b) 1) as [R|R].
  - rewrite R, Z.eqb_refl. cbn [negb andb]. rewrite (Q (n / b) 1) by lia. rewrite (Q' (n / b - 1) b) by lia. lia.
  - destruct (n mod b =? 1) eqn:X; [lia|]. destruct (1 <? b) eqn:Y; [|lia]. cbn [negb andb].
    destruct (Z.eq_dec (n mod b) 0) as [R0|R0].
    + rewrite (Q (n / b - 1) b) by lia. rewrite (Q' (n / b - 1) (b - 1)) by lia. lia.
    + rewrite (Q (n / b) (n mod b)) by lia. rewrite (Q' (n / b) (n mod b - 1)) by lia. lia.
Qed.

Lemma sc_bounds c : 0 <= c < mn -> 1 <= sc c <= mt /\ (sc c - 1) * b < mt - c <= sc c * b.
Proof. intros C. pose proof (st_bounds mt mn bs Hmn Hbs c C) as X. change (st mt bs c) with (sc c) in X. unfold bs in X.
  assert (0 <= (sc c - 1) * (b - 1)) by (apply Z.mul_nonneg_nonneg; lia). lia. Qed.

Definition cinv (NT NZ : Z -> Z) : Prop :=
  (NT 0 = 0 \/ NT 0 = sc 0) /\
  forall j, 0 <= j < mn ->
    0 <= NZ j /\ NT j <= sc j /\ (NZ j < NT j \/ (NZ j = 0 /\ NT j = 0)) /\ NT j <= newT NT NZ j.

Definition inv (s : gstate) : Prop :=
  all_allowed mt mn untreated (g_ops s) /\
  is mt mn bs (effects untreated (g_ops s)) (g_NT s) (g_NZ s) /\
  cinv (g_NT s) (g_NZ s).

Lemma newT_le NT NZ j : cinv NT NZ -> 0 <= j < mn -> newT NT NZ j <= sc j.
Proof.
  intros [C0 C] J. unfold newT. destruct (j =? 0) eqn:E; [apply Z.eqb_eq in E; subst; lia|].
  assert (J1 : 0 <= j - 1 < mn) by lia. destruct (C _ J1) as [A1 [A2 [A3 A4]]].
  rewrite sc_shift by lia. pose proof (sc_bounds (j - 1) J1). pose proof (sc_bounds j J) as SB. rewrite sc_shift in SB by lia.
  destruct (shifted j); cbn [andb].
  - destruct (NZ (j - 1) <? NT (j - 1)) eqn:X; lia.
  - lia.
Qed.

(* rows of a new supertile are finished in the column before *)
Lemma prev_zero NT NZ j k d : cinv NT NZ -> 0 < j < mn -> 0 <= k < newT NT NZ j -> 0 <= d < b ->
  stat mt bs NT NZ (head mt bs j k + d) (j - 1) = Zero.
Proof.
  intros [C0 C] J K D. assert (J1 : 0 <= j - 1 < mn) by lia. destruct (C _ J1) as [A1 [A2 [A3 A4]]].
  pose proof (sc_shift j J) as SH. unfold newT in K. destruct (j =? 0) eqn:E; [lia|].
  destruct (Z.eq_dec (d + 1) b) as [L|L].
  - (* the row is the head of the supertile below *)
    replace (head mt bs j k + d) with (head mt bs (j - 1) (sc (j - 1) - sc j + k - 1) + 0).
    2:{ rewrite !head_b, <- L. lia. }
    rewrite (stat_eq mt mn bs Hbs) by (unfold bs; lia). cbn [Z.eqb].
    destruct (sc (j - 1) - sc j + k - 1 <? NZ (j - 1)) eqn:X; [reflexivity|]. exfalso.
    destruct (shifted j); cbn [andb] in K; [|lia]. destruct (NZ (j - 1) <? NT (j - 1)); lia.
  - replace (head mt bs j k + d) with (head mt bs (j - 1) (sc (j - 1) - sc j + k) + (d + 1)).
    2:{ rewrite !head_b. lia. }
    rewrite (stat_eq mt mn bs Hbs) by (unfold bs; lia).
    destruct (d + 1 =? 0) eqn:X0; [lia|].
    destruct (sc (j - 1) - sc j + k <? NT (j - 1)) eqn:X; [reflexivity|]. exfalso.
    destruct (shifted j); cbn [andb] in K; [destruct (NZ (j - 1) <? NT (j - 1)) eqn:Y; lia|]. lia.
Qed.

Definition newZ (NT NZ : Z -> Z) (j : Z) : Z := NZ j + (NT j - NZ j) / 2.

Lemma newZ_bounds NT NZ j : cinv NT NZ -> 0 <= j < mn ->
  NZ j <= newZ NT NZ j /\ (newZ NT NZ j < NT j \/ (newZ NT NZ j = 0 /\ NT j = 0)).
Proof.
  intros [C0 C] J. destruct (C j J) as [A1 [A2 [A3 A4]]]. unfold newZ.
  pose proof (Z.div_mod (NT j - NZ j) 2 ltac:(lia)). pose proof (Z.mod_pos_bound (NT j - NZ j) 2 ltac:(lia)). lia.
Qed.

Lemma cinv_column NT NZ j : cinv NT NZ -> 0 <= j < mn ->
  cinv (aset NT j (newT NT NZ j)) (aset NZ j (newZ NT NZ j)).
Proof.
  intros CI J. pose proof (newT_le _ _ _ CI J) as TL. pose proof (newZ_bounds _ _ _ CI J) as [ZL ZU].
  destruct CI as [C0 C]. split.
  - unfold aset. destruct (0 =? j) eqn:E; [|exact C0]. right. unfold newT. destruct (j =? 0) eqn:E2; [reflexivity|lia].
  - intros i Hi. destruct (C i Hi) as [A1 [A2 [A3 A4]]].
    destruct (Z.eq_dec i j) as [->|NE].
    + assert (E : newT (aset NT j (newT NT NZ j)) (aset NZ j (newZ NT NZ j)) j = newT NT NZ j).
      { remember (newT NT NZ j) as x eqn:Ex. unfold newT, aset. rewrite Ex. unfold newT. destruct (j =? 0) eqn:E; [reflexivity|].
        destruct (j - 1 =? j) eqn:E2; [lia|]. reflexivity. }
      rewrite E. assert (E1 : forall f v, aset f j v j = v) by (intros; unfold aset; now rewrite Z.eqb_refl).
      rewrite !E1. lia.
    + assert (E1 : aset NT j (newT NT NZ j) i = NT i) by (unfold aset; destruct (i =? j) eqn:X; [lia|reflexivity]).
      assert (E2 : aset NZ j (newZ NT NZ j) i = NZ i) by (unfold aset; destruct (i =? j) eqn:X; [lia|reflexivity]).
      rewrite E1, E2. split; [lia|]. split; [lia|]. split; [lia|].
      remember (newT NT NZ j) as x eqn:Ex. unfold newT in A4. unfold newT. destruct (i =? 0) eqn:E0; [exact A4|].
      unfold aset. destruct (i - 1 =? j) eqn:E3; [|exact A4].
      assert (i - 1 = j) by lia. replace (i - 1) with j in A4 by lia.
      destruct (C j J) as [B1 [B2 [B3 B4]]].
      destruct (shifted i); cbn [andb] in *; [|lia].
      destruct (NZ j <? NT j) eqn:Y1; destruct (newZ NT NZ j <? x) eqn:Y2; lia.
Qed.

(* one column of one sweep *)
Lemma column_ok s j : inv s -> 0 <= j < mn ->
  exists ops',
    block_column lops mt b s j
    = Some (mkgs (aset (g_NT s) j (newT (g_NT s) (g_NZ s) j)) (aset (g_NZ s) j (newZ (g_NT s) (g_NZ s) j)) ops'
              (negb (newT (g_NT s) (g_NZ s) j =? g_NT s j) || negb (newZ (g_NT s) (g_NZ s) j =? g_NZ s j) || g_upd s)) /\
    all_allowed mt mn untreated ops' /\
    is mt mn bs (effects untreated ops') (aset (g_NT s) j (newT (g_NT s) (g_NZ s) j)) (aset (g_NZ s) j (newZ (g_NT s) (g_NZ s) j)).
Proof.
  destruct s as [NT NZ ops upd]. intros [A [IS CI]] J. cbn [g_NT g_NZ g_ops g_upd] in *.
  pose proof (newT_le _ _ _ CI J) as TL. pose proof (newZ_bounds _ _ _ CI J) as [ZL ZU].
  destruct CI as [C0 C] eqn:CE. clear CE. destruct (C j J) as [A1 [A2 [A3 A4]]].
  (* the flat trees *)
  destruct (add_flats mt mn bs Hmn Hbs (effects untreated ops) NT NZ j (newT NT NZ j) A4 IS J ltac:(lia) TL) as [F1 F2].
  { intros J0 k d K D R. rewrite IS.
    - apply prev_zero; [exact CI|lia|lia|exact D].
    - lia.
    - assert (K2 : k < sc j) by lia. unfold bs in D.
      assert (j <= head mt bs j k) by (rewrite head_b; nia). lia. }
  remember (flats mt bs j (NT j) (newT NT NZ j)) as L1 eqn:EL1.
  (* the eliminations *)
  assert (TR : treated_ready mt mn (effects (effects untreated ops) L1)).
  { apply treated_ready_effects; [exact F1|]. apply treated_ready_effects; [exact A|]. apply treated_ready_untreated. }
  destruct (add_tts mt mn bs Hmn Hbs (effects (effects untreated ops) L1) (aset NT j (newT NT NZ j)) NZ j
              ((NT j - NZ j) / 2) (newZ NT NZ j) ZL) as [T1 T2]; auto.
  { unfold newZ. lia. }
  { unfold aset. rewrite Z.eqb_refl. unfold newZ.
    pose proof (Z.div_mod (NT j - NZ j) 2 ltac:(lia)). pose proof (Z.mod_pos_bound (NT j - NZ j) 2 ltac:(lia)). lia. }
  { unfold aset. rewrite Z.eqb_refl. exact TL. }
  remember (tts mt bs j (NZ j) (newZ NT NZ j) ((NT j - NZ j) / 2)) as L2 eqn:EL2.
  assert (ALL : all_allowed mt mn untreated (ops ++ L1 ++ L2)).
  { apply all_allowed_app. split; [exact A|]. apply all_allowed_app. split; assumption. }
  assert (LEN : Z.of_nat (length (ops ++ L1 ++ L2)) <= lops).
  { rewrite Hl. apply ops_bound; [lia|exact ALL]. }
  exists (ops ++ L1 ++ L2). split; [|split; [exact ALL|]].
  2:{ rewrite !effects_app. exact T2. }
  unfold block_column. cbn [g_NT g_NZ g_ops g_upd]. cbv zeta.
  assert (EN : (if j =? 0 then NT j + (get_super_tiles mt b - NT j)
     else if negb ((mt - (j - 1)) mod b =? 1) && (1 <? b) && (NZ (j - 1) <? NT (j - 1))
          then NZ (j - 1) + 1 else NZ (j - 1)) = newT NT NZ j).
  { unfold newT, shifted, sc. rewrite Z.sub_0_r. destruct (j =? 0); [lia|]. reflexivity. }
  rewrite EN. clear EN.
  assert (ST : forall k, j + (get_super_tiles (mt - j) b - k - 1) * b = head mt bs j k).
  { intros k. unfold head, st, bs. lia. }
  assert (E1 : (if j =? 0
    then if 0 <? get_super_tiles mt b - NT j
         then for_each (fun ops0 k => let itile := j + k * b in insert_flat_tree lops ops0 j itile (Z.min b (mt - itile)))
                (rev (zrange 0 (get_super_tiles mt b))) ops
         else Some ops
    else for_each (fun ops0 k =>
             let kk := get_super_tiles (mt - j) b - k - 1 in
             let itile := j + kk * b in insert_flat_tree lops ops0 j itile (Z.min b (mt - itile)))
           (zrange (NT j) (newT NT NZ j)) ops) = Some (ops ++ L1)).
  { assert (LEN1 : Z.of_nat (length (ops ++ L1)) <= lops) by (rewrite !app_length in *; lia).
    destruct (j =? 0) eqn:E0.
    - assert (j = 0) by lia. subst j. 
      assert (S0 : get_super_tiles mt b = sc 0) by (unfold sc; now rewrite Z.sub_0_r). rewrite S0.
      destruct (0 <? sc 0 - NT 0) eqn:E1.
      + destruct C0 as [C0|C0]; [|lia].
        pose proof (sc_bounds 0 J) as SB0.
        rewrite (for_each_ok lops _ (fun k => flat 0 (0 + k * b) (Z.min b (mt - (0 + k * b))))).
        * f_equal. f_equal. rewrite EL1, rev_zrange by lia. unfold flats. rewrite flat_map_map'.
          unfold newT. cbn [Z.eqb]. rewrite C0. apply flat_map_ext'. intros k _. reflexivity.
        * intros o x _. apply insert_flat_ok.
        * revert LEN1. rewrite EL1, rev_zrange by lia. unfold flats. rewrite flat_map_map'.
          unfold newT. cbn [Z.eqb]. rewrite C0. 
          rewrite (flat_map_ext' (fun k => flat 0 (head mt bs 0 k) (height mt bs 0 k))
                     (fun x => flat 0 (0 + (sc 0 - 1 - x) * b) (Z.min b (mt - (0 + (sc 0 - 1 - x) * b)))));
            [intros X; exact X|]. intros k _. reflexivity.
      + destruct C0 as [C0|C0]; [pose proof (sc_bounds 0 J); lia|].
        rewrite EL1. unfold flats, newT. cbn [Z.eqb]. rewrite zrange_nil by lia. cbn [flat_map]. now rewrite app_nil_r.
    - rewrite (for_each_ok lops _ (fun k => flat j (head mt bs j k) (height mt bs j k))).
      + rewrite EL1. reflexivity.
      + intros o x _ LX. cbv zeta. rewrite ST. unfold height, bs in *. apply insert_flat_ok. exact LX.
      + rewrite EL1 in LEN1. exact LEN1. }
  cbv zeta in E1. rewrite E1. clear E1.
  rewrite (for_each_ok lops _ (fun k => [mktop 2 j (head mt bs j k) (head mt bs j (k + (NT j - NZ j) / 2))])).
  - rewrite <- app_assoc. fold (newZ NT NZ j). rewrite EL2. reflexivity.
  - intros o x _ LX. cbv zeta.
    rewrite ST. replace (j + (get_super_tiles (mt - j) b - x - 1 - (NT j - NZ j) / 2) * b)
      with (head mt bs j (x + (NT j - NZ j) / 2)) by (unfold head, st, bs; lia).
    apply insert_ok. exact LX.
  - rewrite <- app_assoc. fold (newZ NT NZ j). rewrite EL2 in LEN. exact LEN.
Qed.

Definition mu (s : gstate) : Z := csum (fun c => g_NT s c + g_NZ s c) (zrange 0 mn).

Definition fixed (s : gstate) (j : Z) : Prop :=
  newT (g_NT s) (g_NZ s) j = g_NT s j /\ newZ (g_NT s) (g_NZ s) j = g_NZ s j.

Lemma newT_ext NT NZ NT' NZ' j : (forall c, NT c = NT' c) -> (forall c, NZ c = NZ' c) -> newT NT NZ j = newT NT' NZ' j.
Proof. intros E1 E2. unfold newT. rewrite E1, E2. reflexivity. Qed.

Lemma newZ_ext NT NZ NT' NZ' j : (forall c, NT c = NT' c) -> (forall c, NZ c = NZ' c) -> newZ NT NZ j = newZ NT' NZ' j.
Proof. intros E1 E2. unfold newZ. rewrite E1, E2. reflexivity. Qed.

Lemma sweep_ok l : forall s, inv s -> (forall j, In j l -> 0 <= j < mn) ->
  exists s', for_each (block_column lops mt b) l s = Some s' /\ inv s' /\
    (forall c, g_NT s c <= g_NT s' c /\ g_NZ s c <= g_NZ s' c) /\
    (g_upd s' = true -> g_upd s = true \/ mu s < mu s') /\
    (g_upd s' = false -> g_upd s = false /\ (forall c, g_NT s' c = g_NT s c /\ g_NZ s' c = g_NZ s c) /\ (forall j, In j l -> fixed s j)).
Proof.
  induction l as [|j l IH]; intros s I H.
  - exists s. cbn [for_each]. split; [reflexivity|]. split; [exact I|]. split; [intros; lia|]. split; [auto|].
    intros U. split; [exact U|]. split; [auto|]. intros j [].
  - assert (J : 0 <= j < mn) by (apply H; now left).
    destruct (column_ok s j I J) as [ops' [E [A1 A2]]].
    destruct I as [I1 [I2 I3]].
    pose proof (newZ_bounds _ _ _ I3 J) as [ZL _]. pose proof (proj2 I3 j J) as [_ [_ [_ TL]]].
    remember (mkgs (aset (g_NT s) j (newT (g_NT s) (g_NZ s) j)) (aset (g_NZ s) j (newZ (g_NT s) (g_NZ s) j)) ops'
              (negb (newT (g_NT s) (g_NZ s) j =? g_NT s j) || negb (newZ (g_NT s) (g_NZ s) j =? g_NZ s j) || g_upd s)) as s1 eqn:E1.
    assert (I' : inv s1).
    { rewrite E1. split; [exact A1|]. split; [exact A2|]. cbn [g_NT g_NZ]. apply cinv_column; assumption. }
    assert (M1 : forall c, g_NT s c <= g_NT s1 c /\ g_NZ s c <= g_NZ s1 c).
    { intros c. rewrite E1. cbn [g_NT g_NZ]. unfold aset. destruct (c =? j) eqn:X; [|lia]. assert (c = j) by lia. subst c. lia. }
    destruct (IH s1 I' ltac:(intros; apply H; now right)) as [s' [F [I2' [M2 [U1 U2]]]]].
    exists s'. cbn [for_each]. rewrite E. split; [exact F|]. split; [exact I2'|].
    split; [intros c; specialize (M1 c); specialize (M2 c); lia|].
    assert (MU : mu s1 <= mu s').
    { apply csum_le. intros c _. specialize (M2 c). lia. }
    assert (MU1 : mu s <= mu s1).
    { apply csum_le. intros c _. specialize (M1 c). lia. }
    split.
    + intros U. specialize (U1 U). destruct U1 as [U1|U1]; [|right; lia].
      rewrite E1 in U1. cbn [g_upd] in U1. rewrite !orb_true_iff, !negb_true_iff, !Z.eqb_neq in U1.
      destruct U1 as [[U1|U1]|U1]; [right|right|now left].
      * apply (Z.lt_le_trans _ (mu s1)); [|exact MU]. apply (csum_lt _ _ _ j).
        -- intros c _. specialize (M1 c). lia.
        -- apply in_zrange. lia.
        -- rewrite E1. cbn [g_NT g_NZ]. unfold aset. rewrite Z.eqb_refl. lia.
      * apply (Z.lt_le_trans _ (mu s1)); [|exact MU]. apply (csum_lt _ _ _ j).
        -- intros c _. specialize (M1 c). lia.
        -- apply in_zrange. lia.
        -- rewrite E1. cbn [g_NT g_NZ]. unfold aset. rewrite Z.eqb_refl. lia.
    + intros U. destruct (U2 U) as [V1 [V2 V3]]. rewrite E1 in V1. cbn [g_upd] in V1.
      rewrite !orb_false_iff, !negb_false_iff, !Z.eqb_eq in V1. destruct V1 as [[V1 V1'] V1''].
      assert (SAME : forall c, g_NT s1 c = g_NT s c /\ g_NZ s1 c = g_NZ s c).
      { intros c. rewrite E1. cbn [g_NT g_NZ]. unfold aset. destruct (c =? j) eqn:X; [|auto]. assert (c = j) by lia. subst c. auto. }
      split; [exact V1''|]. split.
      * intros c. specialize (V2 c). specialize (SAME c). lia.
      * intros i [<-|Hi]; [split; assumption|]. destruct (V3 i Hi) as [W1 W2]. unfold fixed.
        rewrite (newT_ext (g_NT s1) (g_NZ s1) (g_NT s) (g_NZ s)) in W1 by (intros; apply SAME).
        rewrite (newZ_ext (g_NT s1) (g_NZ s1) (g_NT s) (g_NZ s)) in W2 by (intros; apply SAME).
        destruct (SAME i). split; congruence.
Qed.

Definition complete (s : gstate) : Prop := forall c, 0 <= c < mn -> g_NT s c = sc c /\ g_NZ s c = sc c - 1.

Lemma fixed_complete s : cinv (g_NT s) (g_NZ s) -> (forall j, 0 <= j < mn -> fixed s j) -> complete s.
Proof.
  intros [C0 C] F c [C1 C2]. revert C2. pattern c. apply natlike_ind; [| |exact C1]; clear c C1.
  - intros J. destruct (C 0 ltac:(lia)) as [A1 [A2 [A3 A4]]]. destruct (F 0 ltac:(lia)) as [F1 F2].
    unfold newT in F1. cbn [Z.eqb] in F1. unfold newZ in F2. pose proof (sc_bounds 0 ltac:(lia)).
    pose proof (Z.div_mod (g_NT s 0 - g_NZ s 0) 2 ltac:(lia)). pose proof (Z.mod_pos_bound (g_NT s 0 - g_NZ s 0) 2 ltac:(lia)). lia.
  - intros c C1 IH J. unfold Z.succ in *. destruct (IH ltac:(lia)) as [P1 P2].
    destruct (C (c + 1) ltac:(lia)) as [A1 [A2 [A3 A4]]]. destruct (F (c + 1) ltac:(lia)) as [F1 F2].
    unfold newT in F1. destruct (c + 1 =? 0) eqn:E; [lia|]. replace (c + 1 - 1) with c in F1 by lia.
    pose proof (sc_shift (c + 1) ltac:(lia)) as SH. replace (c + 1 - 1) with c in SH by lia. 
    unfold newZ in F2. pose proof (sc_bounds (c + 1) ltac:(lia)).
    pose proof (Z.div_mod (g_NT s (c + 1) - g_NZ s (c + 1)) 2 ltac:(lia)).
    pose proof (Z.mod_pos_bound (g_NT s (c + 1) - g_NZ s (c + 1)) 2 ltac:(lia)).
    rewrite P1, P2 in F1. destruct (shifted (c + 1)); cbn [andb] in F1.
    + destruct (sc c - 1 <? sc c) eqn:X; lia.
    + lia.
Qed.

Lemma last_complete s : cinv (g_NT s) (g_NZ s) ->
  sc (mn - 1) <= g_NT s (mn - 1) -> sc (mn - 1) - 1 <= g_NZ s (mn - 1) -> complete s.
Proof.
  intros [C0 C] L1 L2.
  assert (D : forall k, 0 <= k -> k < mn -> g_NT s (mn - 1 - k) = sc (mn - 1 - k) /\ g_NZ s (mn - 1 - k) = sc (mn - 1 - k) - 1).
  { apply (natlike_ind (fun k => k < mn -> g_NT s (mn - 1 - k) = sc (mn - 1 - k) /\ g_NZ s (mn - 1 - k) = sc (mn - 1 - k) - 1)).
    - intros _. rewrite Z.sub_0_r. destruct (C (mn - 1) ltac:(lia)) as [A1 [A2 [A3 A4]]].
      pose proof (sc_bounds (mn - 1) ltac:(lia)). lia.
    - intros k K IH KK. unfold Z.succ in *. destruct (IH ltac:(lia)) as [P1 P2].
      remember (mn - 1 - k) as j eqn:Ej. replace (mn - 1 - (k + 1)) with (j - 1) by lia.
      destruct (C j ltac:(lia)) as [A1 [A2 [A3 A4]]]. destruct (C (j - 1) ltac:(lia)) as [B1 [B2 [B3 B4]]].
      unfold newT in A4. destruct (j =? 0) eqn:E; [lia|].
      pose proof (sc_shift j ltac:(lia)) as SH. pose proof (sc_bounds j ltac:(lia)). pose proof (sc_bounds (j - 1) ltac:(lia)).
      rewrite P1 in A4. destruct (shifted j); cbn [andb] in A4.
      + destruct (g_NZ s (j - 1) <? g_NT s (j - 1)) eqn:X; lia.
      + lia. }
  intros c Hc. replace c with (mn - 1 - (mn - 1 - c)) by lia. apply D; lia.
Qed.

Lemma while_ok fuel : forall s, inv s -> 2 * mt * mn - mu s < Z.of_nat fuel ->
  exists s', block_while fuel lops mt mn b s = Some (Some s') /\ inv s' /\ complete s'.
Proof.
  induction fuel as [|f IH]; intros s I M.
  - exfalso. destruct I as [_ [_ [_ C]]].
    assert (mu s <= 2 * mt * Z.of_nat (length (zrange 0 mn))).
    { apply csum_bound. intros c Hc. apply in_zrange in Hc. destruct (C c ltac:(lia)) as [A1 [A2 [A3 A4]]].
      pose proof (sc_bounds c ltac:(lia)). lia. }
    rewrite zrange_length in H. rewrite Z2Nat.id in H by lia. rewrite Z.sub_0_r in H. lia.
  - cbn [block_while]. replace (mt - mn + 1) with (mt - (mn - 1)) by lia. fold (sc (mn - 1)).
    destruct ((g_NT s (mn - 1) <? sc (mn - 1)) || (g_NZ s (mn - 1) <? sc (mn - 1) - 1)) eqn:W.
    + assert (I0 : inv (mkgs (g_NT s) (g_NZ s) (g_ops s) false)) by exact I.
      destruct (sweep_ok (rev (zrange 0 mn)) _ I0) as [s' [E [I' [MM [U1 U2]]]]].
      { intros j Hj. apply in_rev in Hj. now apply in_zrange in Hj. }
      rewrite E. destruct (g_upd s') eqn:U; cbn [negb].
      * destruct (U1 eq_refl) as [X|X]; [discriminate|]. apply IH; [exact I'|].
        change (mu (mkgs (g_NT s) (g_NZ s) (g_ops s) false)) with (mu s) in X. lia.
      * destruct (U2 eq_refl) as [_ [SAME F]]. exfalso. cbn [g_NT g_NZ] in SAME.
        assert (CO : complete s).
        { apply fixed_complete; [apply I|]. intros j J. apply F. rewrite <- in_rev, in_zrange. lia. }
        destruct (CO (mn - 1) ltac:(lia)) as [K1 K2]. rewrite K1, K2 in W. lia.
    + exists s. split; [reflexivity|]. split; [exact I|]. apply last_complete; [apply I|lia|lia].
Qed.

Lemma while_mono fuel : forall s r fuel', (fuel <= fuel')%nat ->
  block_while fuel lops mt mn b s = Some r -> block_while fuel' lops mt mn b s = Some r.
Proof.
  induction fuel as [|f IH]; intros s r fuel' L E; [discriminate|].
  destruct fuel' as [|f']; [lia|]. cbn [block_while] in *.
  destruct ((g_NT s (mn - 1) <? get_super_tiles (mt - mn + 1) b) || (g_NZ s (mn - 1) <? get_super_tiles (mt - mn + 1) b - 1)); [|exact E].
  destruct (for_each (block_column lops mt b) (rev (zrange 0 mn)) {| g_NT := g_NT s; g_NZ := g_NZ s; g_ops := g_ops s; g_upd := false |}) as [s'|];
    [|exact E].
  destruct (negb (g_upd s')); [exact E|]. apply IH; [lia|exact E].
Qed.

Lemma inv_start : inv (mkgs (fun _ => 0) (fun _ => 0) [] false).
Proof.
  split; [exact I|]. cbn [g_NT g_NZ g_ops effects]. split.
  - intros r c C R. unfold untreated.
    destruct (head_eq mt mn bs Hmn Hbs c r C R) as [k [d [-> [D K]]]]. rewrite (stat_eq mt mn bs Hbs) by assumption.
    destruct (d =? 0); destruct (k <? 0) eqn:X; try reflexivity; lia.
  - split; [left; reflexivity|]. intros j J. pose proof (sc_bounds j J). pose proof (sc_bounds 0 ltac:(lia)).
    split; [lia|]. split; [lia|]. split; [right; lia|]. unfold newT. destruct (j =? 0); [lia|].
    destruct (shifted j && (0 <? 0)); lia.
Qed.

End Block.

Lemma block_greedy_bs_ok mt nt b :
  1 <= mt -> 1 <= nt -> 1 <= b ->
  exists ops, (exists n0, forall fuel, (n0 <= fuel)%nat -> tree_block_greedy_bs fuel mt nt b = TreeDone ops 0) /\
    elimination_scheme mt nt ops.
Proof.
  intros M N B. remember (Z.min mt nt) as mn eqn:Emn.
  remember ((mt * mn - (mn - 1) * mn / 2) + (mt * mn - (mn + 1) * mn / 2)) as lops eqn:El.
  assert (Hmn : 1 <= mn <= mt) by lia.
  pose proof (inv_start mt mn b Hmn B) as I0.
  destruct (while_ok mt mn b lops Hmn B El (Z.to_nat (2 * mt * mn + 1)) _ I0) as [s [E [I C]]].
  { assert (mu mn (mkgs (fun _ => 0) (fun _ => 0) [] false) = 0).
    { unfold mu. cbn [g_NT g_NZ]. clear. induction (zrange 0 mn) as [|x l IH]; [reflexivity|]. cbn [csum fold_right] in *. unfold csum in IH. lia. }
    rewrite H. nia. }
  destruct I as [I1 [I2 I3]].
  exists (g_ops s). split.
  - exists (Z.to_nat (2 * mt * mn + 1)). intros fuel F. unfold tree_block_greedy_bs. cbv zeta. rewrite <- Emn.
    replace (mt * mn - mn * (mn - 1) / 2 + (mt * mn - (mn + 1) * mn / 2)) with lops
      by (rewrite El; rewrite (Z.mul_comm mn (mn - 1)); reflexivity).
    rewrite (while_mono mt mn b lops _ _ _ _ F E).
    pose proof (ops_bound mt mn _ ltac:(lia) I1). destruct (lops <? Z.of_nat (length (g_ops s))) eqn:X; [lia|reflexivity].
  - apply scheme_intro; rewrite <- Emn; [exact I1| |].
    + intros c Hc. exact (proj1 (complete_final mt mn (fun _ => b) Hmn (fun _ _ => B) _ _ _ I2 C) c Hc).
    + intros r c Hc Hr. exact (proj2 (complete_final mt mn (fun _ => b) Hmn (fun _ _ => B) _ _ _ I2 C) r c Hc Hr).
Qed.

Lemma block_size_bounds mt mn nc : 1 <= mt -> 1 <= block_size mt mn nc <= mt.
Proof. intros M. unfold block_size. lia. Qed.

Lemma tree_operations_ok mt nt ncores :
  1 <= mt -> 1 <= nt -> 1 <= ncores ->
  exists ops, (exists n0, forall fuel, (n0 <= fuel)%nat -> tree_operations fuel mt nt ncores = TreeDone ops 0) /\
    elimination_scheme mt nt ops.
Proof.
  intros M N NC. apply block_greedy_bs_ok; auto. apply block_size_bounds. exact M.
Qed.
