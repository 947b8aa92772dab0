(* What goes wrong in plasma_zcposv. *)
From Coq Require Import ZArith List Bool Lia QArith Qcanon Qround FunctionalExtensionality.
From Verif Require Import Base NumModel NumProofs FieldModel TaskModel TaskSpec GuardModel GuardSpec GuardExecProofs ExecProofs DescModel DescSpec DescDriverModel DescProofs4
  MatModel MatSpec GemmProofs DriverModel DriverSpec PotrfModel PotrfSpec PosvModel NormModel NormSpec NormProofs NormInstances
  LayoutModel RefineTaskModel RefineTaskSpec RefineTaskProofs RefineTaskProofs6 PotrfDriverProofs.
Import ListNotations.
Open Scope Z_scope.

(* square roots: of 1 only *)
Definition Q_roots : roots Q_normed.
Proof.
  refine (mkroots Q_normed (fun d : Qc => if Qc_eq_dec d 1%Qc then Some 1%Qc else None) _ _ _ _).
  - intros d r H. destruct (Qc_eq_dec d 1%Qc) as [->|]; [|discriminate]. injection H as <-. reflexivity.
  - intros d r H. reflexivity.
  - intros d r H. destruct (Qc_eq_dec d 1%Qc) as [->|]; [|discriminate]. injection H as <-. discriminate.
  - discriminate.
Defined.

(* numbers of low precision: whole numbers up to 4000 *)
Definition low_prec (x : Qc) : Qc := Q2Qc (inject_Z (Qfloor (this x))).
Definition low_fits (x : Qc) : bool := negb (qltb (Q2Qc (inject_Z 4000)) (qabs x)).

Definition call (eps : Qc) (nb uplo n nrhs : Z) (pA : loc) (lda : Z) (pB : loc) (ldb : Z) (pX : loc) (ldx : Z)
    (bA bB bX bR bS bXs bW bN : Z) : xdriver Q_normed :=
  zcposv (N := Q_normed) (fun _ s => s) (fun x => x) low_prec (fun x => x) low_fits Q_roots (fun x => x) (fun z => nabs (nre z)) eps
    (fun _ => Q2Qc (3 # 2))
    (fun uplo bS A _ _ => pzpotrf (F := Q_normed) Q_roots (fun x => x) uplo bS A)
    (fun uplo bS A bXs X => map sure (two_solves (F := Q_normed) uplo bS A bXs X))
    nb uplo n nrhs pA lda pB ldb pX ldx bA bB bX bR bS bXs bW bN.

(* A = I, B = (0, 1000.5) *)
Definition rmem : mem Q_normed := fun l =>
  if fst l =? 0 then (if (snd l =? 0) || (snd l =? 3) then q 1 else q 0)
  else if (fst l =? 1) && (snd l =? 1) then Q2Qc (2001 # 2) else q 0.
Definition rcall : xdriver Q_normed := call (Q2Qc (1 # 10000)) 1 PlasmaLower 2 1 (0, 0) 2 (1, 0) 2 (2, 0) 2 3 4 5 6 7 8 9 10.
Definition rphases : list (list (cktask Q_normed)) := match rcall with XRuns (RWait ph _) => ph | _ => [] end.
Definition rnext : mem Q_normed -> rprog Q_normed := match rcall with XRuns (RWait _ next) => next | _ => fun _ => RStop 0 [] end.
(* in the second list the largest entry of the second tile of X is found before the norm of A *)
Definition rorders : list (list nat) := [seq 0 10; seq 1 24 ++ [26; 0; 25]; seq 0 3; seq 0 1]%nat.

(* the given orders of execution, list after list *)
Fixpoint run_phases {V} (ph : list (list (cktask V))) (ords : list (list nat)) (M : mem V) : mem V * Z :=
  match ph, ords with
  | ks :: r, o :: os => let s := gk_order ks o (M, 0) in if snd s =? 0 then run_phases r os (fst s) else s
  | _, _ => (M, 0)
  end.
Fixpoint possible {V} (ph : list (list (cktask V))) (ords : list (list nat)) : bool :=
  match ph, ords with
  | ks :: r, o :: os => is_perm o (length ks) && respectsb (map (fun k => k_deps (ck_task k)) ks) o && possible r os
  | [], [] => true
  | _, _ => false
  end.
Lemma phases_possible : forall V (ph : list (list (cktask V))) ords M (Q : mem V -> Z -> Prop),
  possible ph ords = true -> gphases_ensures ph M Q -> Q (fst (run_phases ph ords M)) (snd (run_phases ph ords M)).
Proof.
  induction ph as [|ks ph IH]; intros [|o os] M Q HP HE; try discriminate HP; cbn [run_phases gphases_ensures fst snd] in *; [exact HE|].
  cbn [possible] in HP. apply andb_true_iff in HP. destruct HP as [HP HP3]. apply andb_true_iff in HP. destruct HP as [HP1 HP2].
  destruct (gorder_possible _ ks o M _ (is_perm_spec _ _ HP1) (respectsb_spec _ _ HP2) HE) as (M' & E & H1 & H2).
  apply functional_extensionality in E. subst M'. destruct (Z.eqb_spec (snd (gk_order ks o (M, 0))) 0) as [E|E].
  - apply IH; [exact HP3|]. apply H1. exact E.
  - apply H2. exact E.
Qed.
Lemma wait_possible : forall V (ph : list (list (cktask V))) next ords M M' iter ks o (Q : Z -> mem V -> Z -> Prop),
  possible ph ords = true -> run_phases ph ords M = (M', 0) -> next M' = RStop iter ks ->
  is_perm o (length ks) && respectsb (map (fun k => k_deps (ck_task k)) ks) o = true ->
  rprog_ensures (RWait ph next) M Q -> Q iter (fst (gk_order ks o (M', 0))) (snd (gk_order ks o (M', 0))).
Proof.
  intros V ph next ords M M' iter ks o Q HP HR HN HO H. cbn [rprog_ensures] in H.
  apply (phases_possible _ _ ords) in H; [|exact HP]. rewrite HR in H. cbn [fst snd] in H. destruct H as [H _].
  specialize (H eq_refl). rewrite HN in H. cbn [rprog_ensures] in H. apply andb_true_iff in HO. destruct HO as [P1 P2].
  destruct (gorder_possible _ ks o M' _ (is_perm_spec _ _ P1) (respectsb_spec _ _ P2) H) as (M2 & E & K).
  apply functional_extensionality in E. subst M2. exact K.
Qed.
Lemma rcall_eq : rcall = XRuns (RWait rphases rnext).
Proof. reflexivity. Qed.
Lemma rorders_possible : possible rphases rorders = true.
Proof. vm_compute. reflexivity. Qed.
Definition rend : mem Q_normed := fst (run_phases rphases rorders rmem).
Lemma rend_status : snd (run_phases rphases rorders rmem) = 0.
Proof. lazy. reflexivity. Qed.
Lemma rend_eq : run_phases rphases rorders rmem = (rend, 0).
Proof. rewrite <- rend_status. apply surjective_pairing. Qed.
Definition rout : list (cktask Q_normed) := match rnext rend with RStop _ ks => ks | _ => [] end.
Lemma rnext_eq : rnext rend = RStop 0 rout.
Proof. lazy. reflexivity. Qed.
Definition rlast : mem Q_normed * Z := gk_order rout [0; 1]%nat (rend, 0).
Lemma rlast_possible : is_perm [0; 1]%nat (length rout) && respectsb (map (fun k => k_deps (ck_task k)) rout) [0; 1]%nat = true.
Proof. lazy. reflexivity. Qed.
Lemma rlast_status : snd rlast = 0.
Proof. lazy. reflexivity. Qed.
Lemma rlast_x0 : ul (fst rlast) (2, 0) 2 0 0 = q 0.
Proof. apply Qc_is_canon. lazy. reflexivity. Qed.
Lemma rlast_x1 : ul (fst rlast) (2, 0) 2 1 0 = q 1000.
Proof. apply Qc_is_canon. lazy. reflexivity. Qed.

(* the norm of A is 1 *)
Lemma rnorm : forall v : Q_normed, is_norm (fun x : Q_normed => x) PlasmaInfNorm 2 2 (herm PlasmaLower (ul rmem (0, 0) 2)) v -> v = q 1.
Proof.
  intros v [[H _]|[[H _]|[[_ H]|[H _]]]]; try discriminate H.
  destruct H as [_ [(i & Hi & ->)|[H _]]]; [|exfalso; apply (H 0); lia].
  assert (E : i = 0 \/ i = 1) by lia. destruct E as [-> | ->]; apply Qc_is_canon; lazy; reflexivity.
Qed.
Lemma rnot_accepted : ~ accepted (N := Q_normed) 2 1 (herm PlasmaLower (ul rmem (0, 0) 2)) (ul rmem (1, 0) 2) (ul (fst rlast) (2, 0) 2)
  (nmul (nmul (q 1) (Q2Qc (1 # 10000) : Q_normed)) (Q2Qc (3 # 2) : Q_normed)).
Proof.
  intros H. destruct (H 0 ltac:(lia)) as (x & r & [X1 X2] & [R1 R2] & HL).
  assert (EX : x = q 1000 \/ x = q 0).
  { destruct X2 as [(i & Hi & ->)|[K _]]; [|exfalso; apply (K 0); lia].
    assert (E : i = 0 \/ i = 1) by lia. destruct E as [-> | ->].
    - right. rewrite rlast_x0. apply Qc_is_canon; lazy; reflexivity.
    - left. rewrite rlast_x1. apply Qc_is_canon; lazy; reflexivity. }
  assert (ER : nltb r (Q2Qc (1 # 2) : Q_normed) = false).
  { specialize (R1 1 ltac:(lia)).
    assert (E1 : ncabs1 (residual_at 2 (herm PlasmaLower (ul rmem (0, 0) 2)) (ul rmem (1, 0) 2) (ul (fst rlast) (2, 0) 2) 1 0)
                 = (Q2Qc (1 # 2) : Q_normed)).
    { apply Qc_is_canon; lazy; reflexivity. }
    rewrite E1 in R1. exact R1. }
  change (qltb r (Q2Qc (1 # 2)) = false) in ER. change (qltb (x * ((q 1 * Q2Qc (1 # 10000)) * Q2Qc (3 # 2)))%Qc r = false) in HL.
  unfold qltb in ER, HL. destruct (Qclt_le_dec r (Q2Qc (1 # 2))) as [|LR]; [discriminate|].
  destruct (Qclt_le_dec (x * (q 1 * Q2Qc (1 # 10000) * Q2Qc (3 # 2)))%Qc r) as [|LX]; [discriminate|].
  pose proof (Qcle_trans _ _ _ LR LX) as L. destruct EX as [-> | ->]; apply L; lazy; reflexivity.
Qed.

Lemma zcposv_race : exists (narrow widen : Q_normed -> Q_normed) (fits : Q_normed -> bool) (R : roots Q_normed) (eps : Q_normed) (sqrt_n : Z -> Q_normed)
    (nb uplo n nrhs : Z) (pA : loc) (lda : Z) (pB : loc) (ldb : Z) (pX : loc) (ldx bA bB bX bR bS bXs bW bN : Z)
    (S : Z -> Z -> Q_normed) (M : mem Q_normed),
  0 < nb /\ valid_uplo uplo /\ 0 < n /\ 0 < nrhs /\ n <= lda /\ n <= ldb /\ n <= ldx /\
  NoDup [fst pA; fst pB; fst pX; bA; bB; bX; bR; bW; bN; bS; bXs] /\ is_hermitian M uplo pA lda n S /\
  ~ xdriver_ensures (zcposv (N := Q_normed) (fun _ s => s) (fun x => x) narrow widen fits R (fun x => x) (fun z => nabs (nre z)) eps sqrt_n
      (fun uplo bS A _ _ => pzpotrf (F := Q_normed) R (fun x => x) uplo bS A)
      (fun uplo bS A bXs X => map sure (two_solves (F := Q_normed) uplo bS A bXs X))
      nb uplo n nrhs pA lda pB ldb pX ldx bA bB bX bR bS bXs bW bN) M
    (fun iter M' st => st = 0 -> iter <> Some (-31) ->
       forall anorm, is_norm (fun x => x) PlasmaInfNorm n n (herm uplo (ul M pA lda)) anorm ->
         accepted n nrhs S (ul M pB ldb) (ul M' pX ldx) (nmul (nmul anorm eps) (sqrt_n n))).
Proof.
  exists low_prec, (fun x => x), low_fits, Q_roots, (Q2Qc (1 # 10000)), (fun _ => Q2Qc (3 # 2)), 1, PlasmaLower, 2, 1,
    (0, 0), 2, (1, 0), 2, (2, 0), 2, 3, 4, 5, 6, 7, 8, 9, 10, (herm PlasmaLower (ul rmem (0, 0) 2)), rmem.
  split; [lia|]. split; [right; reflexivity|]. split; [lia|]. split; [lia|]. split; [lia|]. split; [lia|]. split; [lia|].
  split; [cbn; repeat constructor; cbn; intuition discriminate|]. split.
  { split; intros i j [Hi Hj]; assert (Ei : i = 0 \/ i = 1) by lia; assert (Ej : j = 0 \/ j = 1) by lia;
      destruct Ei as [-> | ->], Ej as [-> | ->]; intros; reflexivity. }
  change (~ xdriver_ensures rcall rmem (fun iter M' st => st = 0 -> iter <> Some (-31) ->
       forall anorm, is_norm (fun x : Q_normed => x) PlasmaInfNorm 2 2 (herm PlasmaLower (ul rmem (0, 0) 2)) anorm ->
         accepted 2 1 (herm PlasmaLower (ul rmem (0, 0) 2)) (ul rmem (1, 0) 2) (ul M' (2, 0) 2)
           (nmul (nmul anorm (Q2Qc (1 # 10000) : Q_normed)) (Q2Qc (3 # 2) : Q_normed)))).
  rewrite rcall_eq. cbn [xdriver_ensures]. intros H.
  pose proof (wait_possible _ rphases rnext rorders rmem rend 0 rout [0; 1]%nat _ rorders_possible rend_eq rnext_eq rlast_possible H) as K.
  clear H. cbv beta in K.
  apply rnot_accepted. apply (K rlast_status ltac:(discriminate) (q 1)).
  right; right; left. split; [reflexivity|]. split.
  - intros i Hi. assert (E : i = 0 \/ i = 1) by lia. destruct E as [-> | ->]; lazy; reflexivity.
  - left. exists 0. split; [lia|]. apply Qc_is_canon; lazy; reflexivity.
Qed.

(* A = I but for element (0, 1), which is 5000 and not referenced *)
Definition tmem : mem Q_normed := fun l =>
  if fst l =? 0 then (if snd l =? 2 then q 5000 else if (snd l =? 0) || (snd l =? 3) then q 1 else q 0) else q 1.
Lemma zcposv_other_triangle : exists (narrow widen : Q_normed -> Q_normed) (fits : Q_normed -> bool) (R : roots Q_normed) (eps : Q_normed) (sqrt_n : Z -> Q_normed)
    (nb uplo n nrhs : Z) (pA : loc) (lda : Z) (pB : loc) (ldb : Z) (pX : loc) (ldx bA bB bX bR bS bXs bW bN : Z)
    (S : Z -> Z -> Q_normed) (M : mem Q_normed),
  0 < nb /\ valid_uplo uplo /\ 0 < n /\ 0 < nrhs /\ n <= lda /\ n <= ldb /\ n <= ldx /\
  NoDup [fst pA; fst pB; fst pX; bA; bB; bX; bR; bW; bN; bS; bXs] /\ is_hermitian M uplo pA lda n S /\
  (forall i j, in_matrix n n i j -> S i j = if i =? j then n1 else n0) /\
  (forall i j, in_matrix n n i j -> fits (S i j) = true) /\ (forall i j, in_matrix n nrhs i j -> fits (ul M pB ldb i j) = true) /\
  xdriver_ensures (zcposv (N := Q_normed) (fun _ s => s) (fun x => x) narrow widen fits R (fun x => x) (fun z => nabs (nre z)) eps sqrt_n
      (fun uplo bS A _ _ => pzpotrf (F := Q_normed) R (fun x => x) uplo bS A)
      (fun uplo bS A bXs X => map sure (two_solves (F := Q_normed) uplo bS A bXs X))
      nb uplo n nrhs pA lda pB ldb pX ldx bA bB bX bR bS bXs bW bN) M
    (fun iter M' st => st <> 0).
Proof.
  exists low_prec, (fun x => x), low_fits, Q_roots, (Q2Qc (1 # 10000)), (fun _ => Q2Qc (3 # 2)), 2, PlasmaLower, 2, 1,
    (0, 0), 2, (1, 0), 2, (2, 0), 2, 3, 4, 5, 6, 7, 8, 9, 10, (fun i j => if i =? j then q 1 else q 0), tmem.
  split; [lia|]. split; [right; reflexivity|]. split; [lia|]. split; [lia|]. split; [lia|]. split; [lia|]. split; [lia|].
  split; [cbn; repeat constructor; cbn; intuition discriminate|].
  assert (H2 : is_hermitian tmem PlasmaLower (0, 0) 2 2 (fun i j => if i =? j then q 1 else q 0)).
  { split; intros i j [Hi Hj]; assert (Ei : i = 0 \/ i = 1) by lia; assert (Ej : j = 0 \/ j = 1) by lia;
      destruct Ei as [-> | ->], Ej as [-> | ->]; try (intros; reflexivity).
    intros [[K _]|[_ K]]; [discriminate K|lia]. }
  split; [exact H2|]. split; [reflexivity|]. split.
  { intros i j _. destruct (i =? j); reflexivity. }
  split.
  { intros i j _. reflexivity. }
  assert (X : forall d (P Q : option Z -> mem Q_normed -> Z -> Prop), (forall iter M' st, P iter M' st -> Q iter M' st) ->
    xdriver_ensures d tmem P -> xdriver_ensures d tmem Q).
  { intros d P Q HPQ HP. destruct d as [it c|p]; cbn [xdriver_ensures] in *; [apply HPQ; exact HP|].
    revert HP. generalize tmem. induction p as [it ks|ph next IH]; intros m HP; cbn [rprog_ensures] in *.
    - eapply gregion_mono; [|exact HP]. intros; apply HPQ; assumption.
    - eapply gphases_mono; [|exact HP]. intros M' st [K1 K2]. split; [intros E; apply IH; auto|intros E; apply HPQ; auto]. }
  eapply X; [|apply zcposv_one with (S := fun i j => if i =? j then q 1 else q 0); try assumption; try lia].
  - intros iter M' st [H _] E. destruct (H E) as (_ & K & _). specialize (K 0 1 ltac:(split; lia)). lazy in K. discriminate K.
  - reflexivity.
  - right. reflexivity.
  - repeat constructor; cbn; intuition discriminate.
  - cbn. intros p H I. intuition (subst; cbn in *; try discriminate).
  - intros A X0 EA EX. apply (potrf_single Q_roots (fun x => x) 2 2 1 PlasmaLower 7 8 A X0); try lia; try assumption. right. reflexivity.
Qed.
