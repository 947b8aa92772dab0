(* plasma_zcposv: the refinement loop, for matrices of any size. *)
From Coq Require Import ZArith List Bool Lia.
From Verif Require Import Base NumModel NumProofs FieldModel TaskModel TaskSpec GuardModel GuardSpec DescModel DescSpec DescDriverModel DescProofs4
  MatModel MatSpec GemmProofs DriverModel DriverSpec PotrfModel PotrfSpec NormModel NormSpec
  LayoutModel RefineTaskModel RefineTaskSpec RefineTaskProofs4.
Import ListNotations.
Open Scope Z_scope.

Lemma refinement_any : forall (N : normed) (narrow widen : N -> N) (fits : N -> bool) (R : roots N) (rp : N -> N)
    nb uplo n nrhs (A X : desc) bA bB bX bR bS bXs bW bN x0 r0 (pX : loc) ldx (solve_s : list (cktask N)) (S : Z -> Z -> N)
    (cte : N) (left : nat) (iiter : Z) (M : mem N),
  (forall x : N, nconj x = x -> rp x = x) ->
  ge_create nb n n = CrOk A (n * n) -> ge_create nb n nrhs = CrOk X (n * nrhs) -> 0 < n -> 0 < nrhs ->
  valid_uplo uplo -> n <= ldx -> x0 + nrhs <= r0 \/ r0 + nrhs <= x0 ->
  NoDup [bA; bB; bX; bR; bW; bN; bS; bXs] -> ~ In (fst pX) [bA; bB; bX; bR; bW; bN; bS; bXs] ->
  Forall (single_task bS A bXs X bXs X) solve_s ->
  (forall i j, in_matrix n n i j -> selects uplo i j -> S i j = el M bA A i j) ->
  (forall i j, in_matrix n n i j -> S j i = nconj (S i j)) ->
  rprog_ensures (rafter (refinement narrow widen fits R rp solve_s uplo bA A bB bX bR bXs X bW (bN, x0) (bN, r0) cte left iiter)
      (map sure (pzdesc2ge bX X pX ldx))) M
    (fun iter M' st =>
      (st = 0 ->
         (iiter < iter <= iiter + Z.of_nat left /\ accepted n nrhs S (el M bB X) (ul M' pX ldx) cte) \/
         (iter = -31 /\ forall i j, in_matrix n nrhs i j ->
            nsum (fun l => nmul (S i l) (ul M' pX ldx l j)) 0 n = el M bB X i j)) /\
      (forall l, ~ In (fst l) [bA; bB; bX; bR; bW; bN; bS; bXs] -> ~ in_user pX ldx n nrhs l -> M' l = M l)).
Proof.
  intros N narrow widen fits R rp nb uplo n nrhs A X bA bB bX bR bS bXs bW bN x0 r0 pX ldx solve_s S cte left iiter M
    Hrp EA EX Pm Pn Hu LX XR ND FX HSo HS HH.
  destruct (ge_create_dn nb n n A _ EA) as (HA & Am & An & _).
  destruct (ge_create_dn nb n nrhs X _ EX) as (HX & Xm & Xn & _).
  assert (AS : d_m A = d_n A) by congruence. assert (AX : d_n A = d_m X) by congruence. clear Am An EA EX. subst n nrhs.
  apply (loop_ensures narrow widen fits R rp Hrp nb A X uplo bA bB bX bR bW bN bS bXs pX ldx HA HX AS AX Pm Pn
           Hu ND FX LX solve_s HSo S (el M bB X)); try assumption.
  - intros i j [Hi Hj]. apply HH. split; assumption.
  - reflexivity.
  - intros iter M' st H1 H2. split; [|exact H2]. exact H1.
Qed.
