(* plasma_zcposv: a case that meets the hypotheses. *)
From Coq Require Import ZArith List Bool Lia Ring QArith Qcanon.
From Verif Require Import Base NumModel NumProofs FieldModel TaskModel TaskSpec GuardModel GuardSpec GuardExecProofs ExecProofs DescModel DescSpec DescDriverModel DescProofs4
  MatModel MatSpec GemmProofs DriverModel DriverSpec PotrfModel PotrfSpec PosvModel NormModel NormSpec NormProofs NormInstances
  LayoutModel RefineTaskModel RefineTaskSpec RefineTaskProofs RefineTaskProofs6 PotrfDriverProofs RefineTaskRefProofs.
Import ListNotations.
Open Scope Z_scope.

Lemma xensures_mono : forall V (d : xdriver V) (M : mem V) (P Q : option Z -> mem V -> Z -> Prop),
  (forall iter M' st, P iter M' st -> Q iter M' st) -> xdriver_ensures d M P -> xdriver_ensures d M Q.
Proof.
  intros V d M P Q HPQ HP. destruct d as [it c|p]; cbn [xdriver_ensures] in *; [apply HPQ; exact HP|].
  revert M HP. induction p as [it ks|ph next IH]; intros m HP; cbn [rprog_ensures] in *.
  - eapply gregion_mono; [|exact HP]. intros; apply HPQ; assumption.
  - eapply gphases_mono; [|exact HP]. intros M' st [K1 K2]. split; [intros E; apply IH; auto|intros E; apply HPQ; auto].
Qed.

Section Row.
Variable N : numbers.
Add Ring num_ring_row : (nring N).
Lemma second_row : forall (f : Z -> N), nsum (fun l => nmul (if 1 =? l then n1 else n0) (f l)) 0 2 = f 1.
Proof.
  intros f. rewrite nsum_cons, nsum_cons, nsum_nil by lia. change (1 =? 0) with false. change (1 =? 0 + 1) with true.
  change (0 + 1) with 1. cbv iota. ring.
Qed.
End Row.

Lemma one_tile_case : is_hermitian rmem PlasmaLower (0, 0) 2 2 (fun i j => if i =? j then q 1 else q 0) /\
  xdriver_ensures (call (Q2Qc (1 # 10000)) 2 PlasmaLower 2 1 (0, 0) 2 (1, 0) 2 (2, 0) 2 3 4 5 6 7 8 9 10) rmem
    (fun iter M' st => st = 0 ->
       (exists k anorm, iter = Some k /\ 0 <= k <= 30 /\
          is_norm (N := Q_normed) (fun x => x) PlasmaInfNorm 2 2 (herm PlasmaLower (ul rmem (0, 0) 2)) anorm /\
          accepted 2 1 (fun i j => if i =? j then q 1 else q 0) (ul rmem (1, 0) 2) (ul M' (2, 0) 2)
            (nmul (nmul anorm (Q2Qc (1 # 10000) : Q_normed)) (Q2Qc (3 # 2) : Q_normed))) \/
       (iter = Some (-31) /\ ul M' (2, 0) 2 1 0 = Q2Qc (2001 # 2))).
Proof.
  assert (H2 : is_hermitian rmem PlasmaLower (0, 0) 2 2 (fun i j => if i =? j then q 1 else q 0)).
  { split; intros i j [Hi Hj]; assert (Ei : i = 0 \/ i = 1) by lia; assert (Ej : j = 0 \/ j = 1) by lia;
      destruct Ei as [-> | ->], Ej as [-> | ->]; intros; reflexivity. }
  split; [exact H2|].
  pose proof (zcposv_one (N := Q_normed) (fun _ s => s) (fun x => x) low_prec (fun x => x) low_fits Q_roots (fun x => x)
    (Q2Qc (1 # 10000)) (fun _ => Q2Qc (3 # 2))
    (fun uplo bS A _ _ => pzpotrf (F := Q_normed) Q_roots (fun x => x) uplo bS A)
    (fun uplo bS A bXs X => map sure (two_solves (F := Q_normed) uplo bS A bXs X))
    2 PlasmaLower 2 1 (0, 0) 2 (1, 0) 2 (2, 0) 2 3 4 5 6 7 8 9 10 (fun i j => if i =? j then q 1 else q 0) rmem) as K.
  unfold call. remember (zcposv (N := Q_normed) (fun _ s => s) (fun x => x) low_prec (fun x => x) low_fits Q_roots (fun x => x)
    (fun z => nabs (nre z)) (Q2Qc (1 # 10000)) (fun _ => Q2Qc (3 # 2))
    (fun uplo bS A _ _ => pzpotrf (F := Q_normed) Q_roots (fun x => x) uplo bS A)
    (fun uplo bS A bXs X => map sure (two_solves (F := Q_normed) uplo bS A bXs X))
    2 PlasmaLower 2 1 (0, 0) 2 (1, 0) 2 (2, 0) 2 3 4 5 6 7 8 9 10) as D eqn:ED. clear ED.
  eapply xensures_mono; [|apply K; clear K; try lia].
  - intros iter M' st [H _] E. destruct (H E) as ([J|[K1 K2]] & _ & _); [left; exact J|]. right. split; [exact K1|].
    specialize (K2 1 0 ltac:(split; lia)).
    rewrite (second_row Q_normed) in K2. rewrite K2. apply Qc_is_canon. lazy. reflexivity.
  - intros x _. reflexivity.
  - right. reflexivity.
  - repeat constructor; cbn; intuition discriminate.
  - intros p H I. cbn in H, I. intuition (subst; cbn in *; discriminate).
  - intros A X0 EA EX. apply (potrf_single Q_roots (fun x => x) 2 2 1 PlasmaLower 7 8 A X0); try lia; try assumption. right. reflexivity.
  - exact H2.
Qed.
