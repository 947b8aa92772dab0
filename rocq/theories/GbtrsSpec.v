(* Specification vocabulary for systems with a factored general band matrix. *)
From Coq Require Import ZArith List.
From Verif Require Import Base NumModel TaskModel TaskSpec DescModel DescSpec MatModel MatSpec NormSpec SwpSpec
  NormBandSpec GbtrsModel.
Import ListNotations.
Open Scope Z_scope.

(* Q of the memory and the code returned holds at the end of every execution *)
Definition pdriver_ensures {V} (d : pdriver V) (M : mem V) (Q : mem V -> Z -> Prop) : Prop :=
  match d with
  | PReturns c => Q M c
  | PRuns ph => phases_ensures ph M (fun M' => Q M' 0)
  end.

Section Factor.
  Context {N : numbers}.
  Variables (nb n : Z).

  (* The array at p holds the factors of an n x n matrix with kl subdiagonals and ku
     superdiagonals, the diagonal in row kl + ku: a i j in row kl + ku + i - j of column j. U has
     kl + ku superdiagonals; the columns of L from k*nb to (k+1)*nb-1 end with row (k+1)*nb+kl-1.
     Zeros are stored where the tiles reach beyond these. *)
  Definition band_factors (M : mem N) (kl ku : Z) (p : loc) (ld : Z) (a : Z -> Z -> N) : Prop :=
    (forall i j, in_matrix n n i j -> gb_reads nb kl ku i j ->
       gb_row M kl ku p ld i j = a i j) /\
    (forall i j, in_matrix n n i j -> kl + ku < j - i \/ (j / nb + 1) * nb + kl <= i -> a i j = n0).

  (* the unit lower triangular matrix that differs from the identity in the columns of block k,
     where it has the elements of a below the diagonal, times the vector y *)
  Definition lower_times (a : Z -> Z -> N) (k : Z) (y : Z -> N) (i : Z) : N :=
    nadd (y i) (nsum (fun j => if j <? i then nmul (a i j) (y j) else n0) (k * nb) (Z.min ((k + 1) * nb) n)).

  (* the row interchanges of block k *)
  Definition block_swaps (ipiv : Z -> Z) (k : Z) : list (Z * Z) :=
    map (fun i => (i, ipiv i - 1)) (zrange (k * nb) (Z.min ((k + 1) * nb) n)).

  (* P_0 L_0 P_1 L_1 ... U, the matrix the factors a and ipiv stand for: L_k as above, P_k undoes the
     interchanges of block k, U is the upper triangle of a; l are the numbers of the blocks *)
  Definition factored (a : Z -> Z -> N) (ipiv : Z -> Z) (l : list Z) : Z -> Z -> N :=
    fold_right (fun k C i j => lower_times a k (fun r => C r j) (source (rev (block_swaps ipiv k)) i))
      (fun i j => if i <=? j then a i j else n0) l.
End Factor.
