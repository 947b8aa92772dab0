(* The four ways of solving with a QR or LQ factorization, on tile matrices, and plasma_zgelqs. *)
From Coq Require Import ZArith List Bool Lia Ring.
From Verif Require Import Base NumModel NumProofs FieldModel ControlModel TaskModel TaskSpec TaskProofs DescModel DescSpec DescDriverModel DescProofs DescProofs3 DescProofs4 DescTProofs
  MatModel MatSpec MatProofs RegionProofs LayoutModel LayoutProofs LayoutProofs2 DriverModel DriverSpec OpProofs OperandProofs GemmProofs GemmDriverProofs RankDriverProofs
  TriModel TriSpec LasetModel QrModel QrSpec QrAlgProofs QrStepProofs QrKerProofs QrKerProofs2 QrMulProofs QrLiftProofs QrTaskProofs QrEffProofs QrUnmProofs QrFacProofs QrInvProofs QrListProofs QrDrvProofs QrDriverProofs
  LsModel LsSpec LsAlgProofs LsViewProofs LsProofs LsQrsProofs LqModel LqDualProofs LqDual2Proofs LqSimProofs LqListProofs LqMateProofs LqEffProofs LqDriverProofs.
Import ListNotations.
Open Scope Z_scope.

Section Solve.
  Context {F : fields}.
  Add Ring num_ring_lq_solve : (nring F).

  (* the rows of B below row r set to zero *)
  Definition down_tasks (B : desc) (bB r : Z) : list (ktask F) :=
    with_view B r 0 (d_m B - r) (d_n B) (fun VB => pzlaset PlasmaGeneral n0 n0 bB VB).

  Lemma down_view : forall nb B r, dn nb B -> gen_ok B -> d_i B = 0 -> d_j B = 0 -> 0 <= r <= d_m B ->
    exists W, desc_view_opt B r 0 (d_m B - r) (d_n B) = Some W.
  Proof.
    intros nb B r DB GB Ei Ej Hr. pose proof (gk_shape B GB) as SA. pose proof (go_im B GB) as SIM. unfold desc_view_opt.
    destruct (Z.ltb_spec (d_gm B) (d_i B + r + (d_m B - r))); [destruct SA; lia|].
    destruct (Z.ltb_spec (d_gn B) (d_j B + 0 + d_n B)); [destruct SA; lia|]. eexists. reflexivity.
  Qed.

  Lemma down_tasks_ok : forall nb B bB r, dn nb B -> gen_ok B -> d_i B = 0 -> d_j B = 0 -> 0 <= r <= d_m B ->
    forall env, In (bB, homeD B (in_tiles B)) env -> Forall (fun k => kgood k /\ kdecl (home_env env) k) (down_tasks B bB r).
  Proof.
    intros nb B bB r DB GB Ei Ej Hr env HE. destruct (down_view nb B r DB GB Ei Ej Hr) as (W & EW).
    unfold down_tasks, with_view. rewrite EW. apply (down_ok nb B bB n0 r DB GB Ei Ej Hr W EW env HE).
  Qed.

  Lemma down_tasks_at : forall nb B bB r, dn nb B -> gen_ok B -> d_i B = 0 -> d_j B = 0 -> 0 <= r <= d_m B ->
    forall M, (forall i j, 0 <= i < d_m B -> 0 <= j < d_n B ->
      el (krun (down_tasks B bB r) M) bB B i j = if r <=? i then n0 else el M bB B i j) /\
    (forall l, fst l <> bB -> krun (down_tasks B bB r) M l = M l).
  Proof.
    intros nb B bB r DB GB Ei Ej Hr M. destruct (down_view nb B r DB GB Ei Ej Hr) as (W & EW).
    unfold down_tasks, with_view. rewrite EW. apply (down_at nb B bB n0 r DB GB Ei Ej Hr W EW M).
  Qed.

  Section Case.
    Variables (nb p q : Z) (A B : desc) (bA bB uplo trans : Z).
    Hypotheses (GA : gen_ok A) (DA : dn nb A) (GB : gen_ok B) (DB : dn nb B).
    Hypothesis Hu : valid_uplo uplo.
    Hypotheses (Hq : 0 < q <= p) (An : q <= d_n A) (Am : q <= d_m A) (Bm : d_m B = p) (Bn : 0 < d_n B).
    Hypothesis NAB : bA <> bB.
    Variables (A0 Q R : Z -> Z -> F).
    Hypothesis UN : is_unitary p Q.
    Hypothesis HF : forall i j, 0 <= i < p -> 0 <= j < q -> A0 i j = nsum (fun l => nmul (Q i l) (rt R l j)) 0 p.
    Hypothesis NT : (n1 : F) <> n0.
    Hypothesis RK : full_column_rank p q A0.

    (* B := Q^H*B, then a triangular solve *)
    Lemma over_fin : forall M3 M4 T,
      (forall i j, 0 <= i < p -> 0 <= j < d_n B -> el M4 bB B i j = nsum (fun l => nmul (nconj (Q l i)) (el M3 bB B l j)) 0 p) ->
      (forall i j, 0 <= i < q -> 0 <= j < q -> T i j = if uplo_sel uplo i j then el M4 bA A i j else n0) ->
      (forall i l, 0 <= i < q -> 0 <= l < q -> op_of trans T i l = rt R i l) ->
      (forall i, 0 <= i < q -> T i i = R i i \/ T i i = nconj (R i i)) ->
      let M5 := krun (view_tasks A B bA bB uplo q trans) M4 in
      (forall j, 0 <= j < d_n B ->
         least_squares p q A0 (fun i => el M3 bB B i j) (fun i => el M5 bB B i j) /\
         sum_squares (fun i => nsub (el M3 bB B i j) (mat_vec q A0 (fun i => el M5 bB B i j) i)) 0 p
         = sum_squares (fun i => el M5 bB B i j) q p) /\
      (forall l, fst l <> bB -> M5 l = M4 l).
    Proof.
      intros M3 M4 T U1 HT HO HD M5.
      pose proof (rank_diag p q A0 Q R ltac:(lia) HF NT RK) as DG.
      destruct (view_tasks_at (F := F) nb A B bA bB uplo q trans GA DA GB DB Hu ltac:(lia) An Am ltac:(lia) Bn NAB M4 T HT) as (V1 & V2 & V3).
      { intros i Hi E. apply (DG i Hi). destruct (HD i Hi) as [X|X]; rewrite E in X; [auto|].
        rewrite <- (nconj_conj F (R i i)), <- X. apply nconj_0. }
      subst M5. split; [|exact V1]. intros j Hj.
      destruct (ls_solution p q A0 Q R ltac:(lia) UN HF (fun i => el M3 bB B i j) (fun i => el (krun (view_tasks A B bA bB uplo q trans) M4) bB B i j)) as [L1 L2].
      { intros c Hc. transitivity (el M4 bB B c j); [|apply U1; lia]. rewrite <- (V3 c j Hc) by lia. unfold mat_vec. apply nsum_ext. intros l Hl.
        rewrite (HO c l) by lia. reflexivity. }
      split; [exact L1|]. rewrite L2. unfold sum_squares. apply nsum_ext. intros i Hi.
      rewrite V2 by lia. rewrite U1 by lia. reflexivity.
    Qed.

    Hypotheses (Ei : d_i B = 0) (Ej : d_j B = 0).

    (* the rows of B below cleared, a triangular solve, then B := Q*B *)
    Lemma under_fin : forall M3 T,
      (forall i j, 0 <= i < q -> 0 <= j < q -> T i j = if uplo_sel uplo i j then el M3 bA A i j else n0) ->
      (forall i l, 0 <= i < q -> 0 <= l < q -> op_of trans T i l = nconj (rt R l i)) ->
      (forall i, 0 <= i < q -> T i i = R i i \/ T i i = nconj (R i i)) ->
      let M5 := krun (view_tasks A B bA bB uplo q trans) (krun (down_tasks B bB q) M3) in
      (forall l, fst l <> bB -> M5 l = M3 l) /\
      (forall M6, (forall i j, 0 <= i < p -> 0 <= j < d_n B -> el M6 bB B i j = nsum (fun l => nmul (Q i l) (el M5 bB B l j)) 0 p) ->
       forall j, 0 <= j < d_n B ->
         minimum_norm q p (LsAlgProofs.adj A0) (fun i => el M3 bB B i j) (fun i => el M6 bB B i j)).
    Proof.
      intros M3 T HT HO HD M5.
      pose proof (rank_diag p q A0 Q R ltac:(lia) HF NT RK) as DG.
      destruct (down_tasks_at nb B bB q DB GB Ei Ej ltac:(lia) M3) as [D1 D2].
      remember (krun (down_tasks B bB q) M3) as M4 eqn:E4. clear E4.
      destruct (view_tasks_at (F := F) nb A B bA bB uplo q trans GA DA GB DB Hu ltac:(lia) An Am ltac:(lia) Bn NAB M4 T) as (V1 & V2 & V3).
      { intros i j Hi Hj. rewrite HT by assumption. destruct (uplo_sel uplo i j); [|reflexivity]. unfold el. symmetry. apply D2. cbn. congruence. }
      { intros i Hi E. apply (DG i Hi). destruct (HD i Hi) as [X|X]; rewrite E in X; [auto|].
        rewrite <- (nconj_conj F (R i i)), <- X. apply nconj_0. }
      subst M5. split; [intros l Hl; rewrite V1, D2 by assumption; reflexivity|]. intros M6 H6 j Hj.
      apply (mn_solution p q A0 Q R ltac:(lia) UN HF (fun i => el M3 bB B i j) (fun i => el (krun (view_tasks A B bA bB uplo q trans) M4) bB B i j)); [assumption| |].
      - intros c Hc. transitivity (el M4 bB B c j).
        + rewrite <- (V3 c j Hc) by lia. apply nsum_ext. intros l Hl. rewrite (HO c l) by lia. reflexivity.
        + rewrite D1 by lia. destruct (Z.leb_spec q c); [lia|reflexivity].
      - intros i Hi. rewrite H6 by lia. unfold mat_vec. apply nsum_ext. intros l Hl. destruct (Z.ltb_spec l q); [reflexivity|].
        rewrite V2 by lia. rewrite D1 by lia. destruct (Z.leb_spec q l); [reflexivity|lia].
    Qed.
  End Case.

  Lemma row_col_rank : forall m n (A : Z -> Z -> F), full_row_rank m n A -> full_column_rank n m (conj_tr (N := F) A).
  Proof.
    intros m n A (L & HL). exists (conj_tr (N := F) L). intros r c Hr Hc. unfold conj_tr.
    transitivity (nconj (nsum (fun i => nmul (A c i) (L i r)) 0 n)).
    - rewrite nconj_sum. apply nsum_ext. intros i Hi. rewrite nconj_mul. ring.
    - rewrite HL by assumption. rewrite (Z.eqb_sym c r). destruct (r =? c); [apply nconj_1|apply nconj_0].
  Qed.

  Lemma col_row_rank : forall m n (A : Z -> Z -> F), full_row_rank n m (conj_tr (N := F) A) -> full_column_rank m n A.
  Proof.
    intros m n A H. apply row_col_rank in H. destruct H as (L & HL). exists L. intros r c Hr Hc. rewrite <- HL by assumption.
    apply nsum_ext. intros i Hi. unfold conj_tr. rewrite nconj_conj. reflexivity.
  Qed.

  (* the adjoint of the LQ factorization *)
  Lemma lq_adj : forall m n (A L Q : Z -> Z -> F), m <= n ->
    (forall i j, 0 <= i < m -> 0 <= j < n -> A i j = nsum (fun l => nmul (if l <=? i then L i l else n0) (Q l j)) 0 n) ->
    forall i j, 0 <= i < n -> 0 <= j < m -> conj_tr (N := F) A i j = nsum (fun l => nmul (conj_tr (N := F) Q i l) (rt (conj_tr (N := F) L) l j)) 0 n.
  Proof.
    intros m n A L Q Hm HA i j Hi Hj. unfold conj_tr. rewrite HA by assumption. rewrite nconj_sum. apply nsum_ext. intros l Hl.
    rewrite nconj_mul. unfold rt. destruct (l <=? j); [ring|rewrite nconj_0; ring].
  Qed.

  Lemma conj_tr_unitary : forall n (Q : Z -> Z -> F), is_unitary n Q -> is_unitary n (conj_tr (N := F) Q).
  Proof.
    intros n Q H i j Hi Hj. destruct (H j i Hj Hi) as [H1 H2]. rewrite (Z.eqb_sym j i) in H1, H2. destruct (H i j Hi Hj) as [H3 H4]. unfold conj_tr. split.
    - rewrite <- H4. apply nsum_ext. intros l Hl. rewrite nconj_conj. reflexivity.
    - rewrite <- H3. apply nsum_ext. intros l Hl. rewrite nconj_conj. reflexivity.
  Qed.
End Solve.
