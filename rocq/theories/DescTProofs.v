(* The descriptor of the T factors. *)
From Coq Require Import ZArith Lia List Bool.
From Verif Require Import Base DescModel DescSpec DescDriverModel DescProofs DescProofs3 DescProofs4.
Open Scope Z_scope.

Lemma descT_shape : forall A ib mode,
  0 < ib -> 0 < d_nb A -> 0 <= d_mt A -> 0 <= d_nt A -> valid_precision (d_prec A) = true ->
  let NT := if mode =? PlasmaTreeHouseholder then 2 * d_nt A else d_nt A in
  exists T, descT_create A ib mode = CrOk T (d_mt A * ib * (NT * d_nb A)) /\
    d_nt T = NT /\
    (forall m, 0 <= m < d_mt A -> tile_mmain T m = ib) /\
    (forall m n, 0 <= m < d_mt A -> 0 <= n < NT ->
       tile_addr T m n = ib * d_nb A * (m + d_mt A * n)).
Proof.
  intros A ib mode Hib Hnb Hmt Hnt HP NT.
  assert (HN : 0 <= NT) by (unfold NT; destruct (mode =? PlasmaTreeHouseholder); lia).
  unfold descT_create. cbv zeta. fold NT.
  set (nb := d_nb A) in *. set (MT := d_mt A) in *.
  assert (D1 : (MT * ib) mod ib = 0) by apply Z_mod_mult.
  assert (D2 : (NT * nb) mod nb = 0) by apply Z_mod_mult.
  assert (Q1 : MT * ib / ib = MT) by (apply Z_div_mult; lia).
  assert (Q2 : NT * nb / nb = NT) by (apply Z_div_mult; lia).
  eexists. split; [apply general_create_succeeds; try assumption; try lia; try nia; apply Z.mod_0_l; lia|].
  split; [|split].
  - cbn. destruct (Z.eqb_spec (NT * nb) 0) as [Z0|Z0]; [nia|].
    rewrite Z.div_0_l by lia.
    replace (0 + NT * nb - 1) with ((nb - 1) + (NT - 1) * nb) by ring.
    rewrite Z.div_add by lia. rewrite Z.div_small by lia. lia.
  - intros m Hm. unfold tile_mmain. cbn. rewrite Q1, Z.div_0_l by lia.
    destruct (Z.ltb_spec (0 + m) MT); lia.
  - intros m n Hm Hn. unfold tile_addr, tile_addr_opt. cbn [d_type general_init].
    rewrite Z.eqb_refl. unfold tile_addr_general. cbn.
    rewrite Q1, Q2, !Z.div_0_l by lia.
    destruct (Z.ltb_spec (m + 0) MT); [|lia]. destruct (Z.ltb_spec (n + 0) NT); [|lia]. 
    rewrite !Z.add_0_r. reflexivity.
Qed.

Lemma descT_slots : forall A ib mode,
  0 < ib -> 0 < d_nb A -> 0 <= d_mt A -> 0 <= d_nt A -> valid_precision (d_prec A) = true ->
  exists T size, descT_create A ib mode = CrOk T size /\
    let slot (second : bool) m n := if second then T2_addr T m n else T_addr T m n in
    let used (second : bool) m n := (second = true -> mode = PlasmaTreeHouseholder) /\
      0 <= m < d_mt A /\ 0 <= n < d_nt A in
    (forall s m n, used s m n ->
       tile_mmain T m = ib /\ 0 <= slot s m n /\ slot s m n + ib * d_nb A <= size) /\
    (forall s m n s' m' n', used s m n -> used s' m' n' -> (s, m, n) <> (s', m', n') ->
       slot s m n + ib * d_nb A <= slot s' m' n' \/ slot s' m' n' + ib * d_nb A <= slot s m n).
Proof.
  intros A ib mode Hib Hnb Hmt Hnt HP.
  destruct (descT_shape A ib mode Hib Hnb Hmt Hnt HP) as (T & E & EN & HM & HA).
  exists T. eexists. split; [exact E|]. cbv zeta.
  set (NT := if mode =? PlasmaTreeHouseholder then 2 * d_nt A else d_nt A) in *.
  set (b := ib * d_nb A) in *. assert (Hb : 0 < b) by (unfold b; nia).
  set (col := fun (s : bool) n => if s then n + d_nt A else n).
  assert (HS : forall (s : bool) m n, (s = true -> mode = PlasmaTreeHouseholder) /\
      0 <= m < d_mt A /\ 0 <= n < d_nt A ->
      0 <= col s n < NT /\
      (if s then T2_addr T m n else T_addr T m n) = b * (m + d_mt A * col s n)).
  { intros s m n (H1 & H2 & H3). unfold col. destruct s.
    - unfold T2_addr. rewrite EN. unfold NT in *. rewrite (H1 eq_refl) in *. rewrite Z.eqb_refl in *.
      rewrite Z.mul_comm, Z.div_mul by lia. split; [lia|]. apply HA; lia.
    - unfold T_addr. unfold NT in *. destruct (mode =? PlasmaTreeHouseholder); (split; [lia|apply HA; lia]). }
  split.
  - intros s m n HU. destruct (HS s m n HU) as [HC ->]. destruct HU as (_ & Hm & Hn).
    split; [apply HM; assumption|]. 
    replace (d_mt A * ib * (NT * d_nb A)) with (b * (d_mt A * NT)) by (unfold b; ring).
    split; [nia|].
    assert (m + d_mt A * col s n + 1 <= d_mt A * NT) by nia. nia.
  - intros s m n s' m' n' HU HU' HD.
    destruct (HS s m n HU) as [HC ->]. destruct (HS s' m' n' HU') as [HC' ->].
    destruct HU as (_ & Hm & Hn). destruct HU' as (_ & Hm' & Hn').
    assert (K : m + d_mt A * col s n <> m' + d_mt A * col s' n').
    { intros K. assert (col s n = col s' n') by nia. assert (m = m') by nia. subst m'.
      apply HD. unfold col in *. destruct s, s'; try lia; try (f_equal; lia). }
    destruct (Z.lt_total (m + d_mt A * col s n) (m' + d_mt A * col s' n')) as [L|[L|L]]; [left|lia|right]; nia.
Qed.
