(* Specification vocabulary for matrix norms. *)
From Coq Require Import ZArith List.
From Verif Require Import Base NumModel FieldModel TaskModel TaskSpec DescModel DescSpec MatModel NormModel.
Import ListNotations.
Open Scope Z_scope.

(* parallel regions one after the other, each on every schedule *)
Fixpoint phases_ensures {V} (ph : list (list (ktask V))) (M : mem V) (Q : mem V -> Prop) : Prop :=
  match ph with
  | nil => Q M
  | ks :: rest => region_ensures ks M (fun M' => phases_ensures rest M' Q)
  end.

(* the driver returns a value v and leaves a memory that satisfy Q, on every schedule *)
Definition valued_ensures {N : normed} (d : valued N) (M : mem N) (Q : N -> mem N -> Prop) : Prop :=
  match d with
  | VReturns code => code = 0 /\ Q n0 M
  | VRuns ph value => phases_ensures ph M (fun M' => Q (M' value) M')
  end.

Section Spec.
  Context {N : normed}.

  (* v is the largest of the numbers f x with P x, or zero if there are none *)
  Definition largest {I : Type} (P : I -> Prop) (f : I -> N) (v : N) : Prop :=
    (forall x, P x -> nltb v (f x) = false) /\
    ((exists x, P x /\ v = f x) \/ ((forall x, ~ P x) /\ v = n0)).

  (* v = s * sqrt(q) with s^2 q the sum of the squares of the absolute values *)
  Definition euclidean (nsqrt : N -> N) (m n : Z) (a : Z -> Z -> N) (v : N) : Prop :=
    exists s q, nabs s = s /\ nabs q = q /\ v = nmul s (nsqrt q) /\
      nmul (nmul s s) q = nsum (fun j => nsum (fun i => nmul (nabs (a i j)) (nabs (a i j))) 0 m) 0 n.

  (* v is the norm of the m x n matrix a *)
  Definition is_norm (nsqrt : N -> N) (norm m n : Z) (a : Z -> Z -> N) (v : N) : Prop :=
    (norm = PlasmaMaxNorm /\
       largest (fun p => in_matrix m n (fst p) (snd p)) (fun p : Z * Z => nabs (a (fst p) (snd p))) v) \/
    (norm = PlasmaOneNorm /\ largest (fun j => 0 <= j < n) (fun j => nsum (fun i => nabs (a i j)) 0 m) v) \/
    (norm = PlasmaInfNorm /\ largest (fun i => 0 <= i < m) (fun i => nsum (fun j => nabs (a i j)) 0 n) v) \/
    (norm = PlasmaFrobeniusNorm /\ euclidean nsqrt m n a v).

  (* the full matrix given by its upper or lower triangle: symmetric, Hermitian, triangular *)
  Definition in_triangle (uplo i j : Z) : bool := if uplo =? PlasmaUpper then i <=? j else j <=? i.
  Definition sym (uplo : Z) (a : Z -> Z -> N) (i j : Z) : N :=
    if in_triangle uplo i j then a i j else a j i.
  Definition herm (uplo : Z) (a : Z -> Z -> N) (i j : Z) : N :=
    if i =? j then nre (a i j) else if in_triangle uplo i j then a i j else nconj (a j i).
  Definition tri (uplo diag : Z) (a : Z -> Z -> N) (i j : Z) : N :=
    if i =? j then (if diag =? PlasmaUnit then n1 else a i j)
    else if in_triangle uplo i j then a i j else n0.

  Definition valid_norm (norm : Z) : Prop :=
    norm = PlasmaMaxNorm \/ norm = PlasmaOneNorm \/ norm = PlasmaInfNorm \/ norm = PlasmaFrobeniusNorm.

  (* contract of LAPACK zlassq: scale and sumsq stay non-negative and scale^2 * sumsq grows by
     the sum of the squares of the absolute values *)
  Definition lassq_ok (lassq : list N -> N * N -> N * N) : Prop :=
    forall xs s, nabs (fst s) = fst s -> nabs (snd s) = snd s ->
      nabs (fst (lassq xs s)) = fst (lassq xs s) /\ nabs (snd (lassq xs s)) = snd (lassq xs s) /\
      nmul (nmul (fst (lassq xs s)) (fst (lassq xs s))) (snd (lassq xs s))
      = nadd (nmul (nmul (fst s) (fst s)) (snd s))
             (fold_right (fun x t => nadd (nmul (nabs x) (nabs x)) t) n0 xs).

  (* every location of block b that a task touches has its offset in [0, size) *)
  Definition within (b size : Z) (k : ktask N) : Prop :=
    forall l, fst l = b -> k_reads k l \/ k_writes k l -> 0 <= snd l < size.
  (* ... and so for all tasks of a driver *)
  Definition all_within (b size : Z) (d : valued N) : Prop :=
    match d with
    | VReturns _ => True
    | VRuns ph _ => forall ks, In ks ph -> forall k, In k ks -> within b size k
    end.
End Spec.
