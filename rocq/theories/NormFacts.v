(* Consequences of the theorems on norms for the complex numbers, and the examples. *)
From Coq Require Import Reals Lra ZArith List Bool Lia Ring.
From Verif Require Import Base NumModel NumProofs FieldModel TaskModel TaskSpec DescModel DescSpec DescDriverModel
  MatModel MatSpec LayoutModel DriverModel DriverSpec SwpModel ComplexInstances NormModel NormTriModel NormSpec NormInstances
  NormProofs FillProofs NormZlangeProofs NormTriProofs.
Import ListNotations.
Open Scope Z_scope.

(* the square root of C99 *)
Definition real_sqrt (z : C_normed) : C_normed := (sqrt (fst z), 0%R).

Lemma euclidean_complex : forall m n (a : Z -> Z -> C_normed) v, euclidean real_sqrt m n a v ->
  (0 <= fst v)%R /\ snd v = 0%R /\
  nmul v v = nsum (fun j => nsum (fun i => nmul (a i j) (nconj (a i j))) 0 m) 0 n.
Proof.
  intros m n a v (s & q & Hs & Hq & -> & E).
  assert (R : forall z : C_normed, nabs z = z -> (0 <= fst z)%R /\ snd z = 0%R).
  { intros z Hz. change (cabs z = z) in Hz. unfold cabs in Hz. rewrite <- Hz. cbn [fst snd]. split; [apply sqrt_pos|reflexivity]. }
  apply R in Hs. apply R in Hq. destruct Hs as [S1 S2]. destruct Hq as [Q1 Q2].
  rewrite (nsum_ext C_normed (fun j => nsum (fun i => nmul (a i j) (nconj (a i j))) 0 m)
    (fun j => nsum (fun i => nmul (nabs (a i j)) (nabs (a i j))) 0 m) 0 n).
  2: { intros j _. apply nsum_ext. intros i _. symmetry. apply nabs_sq. }
  rewrite <- E. clear E. destruct s as [s s'], q as [q q']. cbn [fst snd] in *. subst s' q'.
  change (@nmul C_normed) with cmul. unfold cmul, real_sqrt. cbn [fst snd].
  split; [|split].
  - rewrite Rmult_0_l, Rminus_0_r. apply Rmult_le_pos; [assumption|apply sqrt_pos].
  - ring.
  - f_equal; [|ring]. pose proof (sqrt_sqrt q Q1) as K. ring_simplify. 
    replace (sqrt q ^ 2)%R with q by (rewrite <- K at 1; ring). reflexivity.
Qed.

Lemma valued_mono : forall (N : normed) (d : valued N) M (Q Q' : N -> mem N -> Prop),
  (forall v M', Q v M' -> Q' v M') -> valued_ensures d M Q -> valued_ensures d M Q'.
Proof.
  intros N d M Q Q' H. destruct d as [c|ph value]; cbn [valued_ensures].
  - intros [E K]. split; auto.
  - apply phases_mono. intros M'. apply H.
Qed.

Lemma zlange_frobenius_complex : forall lassq nb m n pA lda bA bW (value : loc) (M : mem C_normed),
  0 < nb -> 0 <= m -> 0 <= n -> Z.max 1 m <= lda ->
  fst pA <> bA -> fst pA <> bW -> bA <> bW -> fst value <> bA -> fst value <> bW ->
  lassq_ok lassq ->
  valued_ensures (zlange lassq real_sqrt nb PlasmaFrobeniusNorm m n pA lda bA bW value) M
    (fun v _ => (0 <= fst v)%R /\ snd v = 0%R /\
       nmul v v = nsum (fun j => nsum (fun i => nmul (ul M pA lda i j) (nconj (ul M pA lda i j))) 0 m) 0 n).
Proof.
  intros lassq nb m n pA lda bA bW value M Hb Hm Hn HL B1 B2 B3 B4 B5 HQ.
  eapply valued_mono; [|apply zlange_norm; try assumption; right; right; right; reflexivity].
  intros v M' [[[E _]|[[E _]|[[E _]|[_ E]]]] _]; try discriminate E. apply euclidean_complex. exact E.
Qed.

(* the memory after the phases, each in submission order *)
Definition runs {V} (ph : list (list (ktask V))) (M : mem V) : mem V := fold_left (fun M ks => krun ks M) ph M.
(* the value a driver returns in this execution *)
Definition result {N : normed} (d : valued N) (M : mem N) : option N :=
  match d with VReturns _ => None | VRuns ph value => Some (runs ph M value) end.
Definition is_q (x : option Q_normed) (a : Z) : bool := match x with Some v => neqb v (q a) | None => false end.
(* the matrix (1 -4 7; 2 5 -8; -3 6 0) in block 0 with leading dimension 4, ones elsewhere *)
Definition M26 : mem Q_normed := fun l =>
  if fst l =? 0 then q (nth (Z.to_nat (snd l)) [1; 2; -3; 99; -4; 5; 6; 99; 7; -8; 0; 99] 99) else q 1.
