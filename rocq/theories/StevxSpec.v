(* What the eigenvalue routine is to compute. *)
From Coq Require Import ZArith QArith List Bool Lia.
From Verif Require Import Base StevxModel.
Import ListNotations.
Open Scope Z_scope.

(* The machine numbers are numbered by Z in increasing order. *)

(* count x is the number of eigenvalues less than x, of n eigenvalues. *)
Definition counts (n : Z) (count : Z -> Z) : Prop :=
  (forall x, 0 <= count x <= n) /\ (forall x y, x <= y -> count x <= count y).

(* mid x y is a machine number between x and y, and is neither of them if there is any other *)
Definition midpoint (mid : Z -> Z -> Z) : Prop :=
  forall x y, x <= y -> x <= mid x y <= y /\ (x + 1 < y -> x < mid x y < y).

(* The machine numbers in [lo, hi) at which there are eigenvalues: some eigenvalue is x or
   lies between x and the machine number that follows. *)
Definition locations (count : Z -> Z) (lo hi : Z) : list Z :=
  filter (fun x => count x <? count (x + 1)) (zrange lo hi).

(* how many eigenvalues there are at x *)
Definition multiplicity (count : Z -> Z) (x : Z) : Z := count (x + 1) - count x.

(* Arrays hold these eigenvalues with their multiplicities. *)
Definition reports (count : Z -> Z) (xs : list Z) (found : Z) (val mul : Z -> Z) : Prop :=
  found = Z.of_nat (length xs) /\
  forall i, 0 <= i < found ->
    val i = nth (Z.to_nat i) xs 0 /\ mul i = multiplicity count (nth (Z.to_nat i) xs 0).

(* The interval [lo, hi] contains all eigenvalues (Gerschgorin), and more than half of it is
   not to the right of all of them. *)
Definition encloses (n : Z) (count : Z -> Z) (mid : Z -> Z -> Z) (lo hi : Z) : Prop :=
  lo <= hi /\ count lo = 0 /\ count (hi + 1) = n /\ (lo + 1 < hi -> count (mid lo hi) < n).

(* Every execution from s comes to an end, and Q holds there. *)
Inductive always_ends {S : Type} (step : S -> S -> Prop) (Q : S -> Prop) : S -> Prop :=
| ae_here s : ((forall t, ~ step s t) -> Q s) -> (forall t, step s t -> always_ends step Q t) ->
    always_ends step Q s.

(* The executions from s to t. *)
Inductive reaches {S : Type} (step : S -> S -> Prop) : S -> S -> Prop :=
| re_here s : reaches step s s
| re_step s t u : step s t -> reaches step t u -> reaches step s u.

(* plasma_zstevx2, with arrays of k elements holding val0 and mul0 at first: it goes on to the
   bisection, which comes to an end whatever the order in which its tasks are executed and
   stores nothing outside of the arrays; what is then returned satisfies Q. *)
Definition stevx_ensures (count : Z -> Z) (mid : Z -> Z -> Z) (k jobtype : Z) (d : stevx)
    (val0 mul0 : Z -> Z) (Q : Z -> (Z -> Z) -> (Z -> Z) -> Prop) : Prop :=
  match d with
  | SxRuns c root nev =>
      always_ends (bstep count mid c k)
        (fun s => s_calls s = [] /\ s_outside s = false /\
           exists found val mul, finish jobtype nev (s_val s) (s_mul s) = Some (found, val, mul) /\
             Q found val mul)
        {| s_calls := [Entering root]; s_val := val0; s_mul := mul0; s_outside := false |}
  | _ => False
  end.

(* lam is an eigenvalue of the symmetric tridiagonal matrix of order n with diagonal d and
   off-diagonal e. *)
Definition tridiag (d e : Z -> Q) (i j : Z) : Q :=
  if i =? j then d i else if i + 1 =? j then e i else if j + 1 =? i then e j else 0%Q.
Definition eigenvalue (n : Z) (d e : Z -> Q) (lam : Q) : Prop :=
  exists x : Z -> Q, (exists i, 0 <= i < n /\ ~ (x i == 0)%Q) /\
    forall i, 0 <= i < n ->
      (fold_right Qplus 0 (map (fun j => tridiag d e i j * x j) (zrange 0 n)) == lam * x i)%Q.

(* the symmetric tridiagonal matrix with diagonal d and off-diagonal e, minus u times the
   identity *)
Definition shifted (d e : list Q) (u : Q) (i j : nat) : Q :=
  if Nat.eqb i j then (nth i d 0 - u)%Q
  else if Nat.eqb j (S i) then nth i e 0%Q
  else if Nat.eqb i (S j) then nth j e 0%Q
  else 0%Q.

(* the sum of f 0, ..., f (n-1) *)
Fixpoint qsum (f : nat -> Q) (n : nat) : Q :=
  match n with
  | O => 0%Q
  | S n' => (qsum f n' + f n')%Q
  end.

(* A = L*D*L^T with L unit lower triangular and no zero on the diagonal of D; by Sylvester's
   law of inertia A has as many negative eigenvalues as D has negative entries *)
Definition is_ldl (n : nat) (A L : nat -> nat -> Q) (D : nat -> Q) : Prop :=
  (forall i, (i < n)%nat -> (L i i == 1)%Q) /\
  (forall i j, (i < j)%nat -> (L i j == 0)%Q) /\
  (forall i, (i < n)%nat -> ~ (D i == 0)%Q) /\
  (forall i j, (i < n)%nat -> (j < n)%nat -> (A i j == qsum (fun k => L i k * D k * L j k) n)%Q).

(* the number of negative entries among D 0, ..., D (n-1) *)
Fixpoint negatives (D : nat -> Q) (n : nat) : Z :=
  match n with
  | O => 0
  | S n' => negatives D n' + (if Qlt_le_dec (D n') 0 then 1 else 0)
  end.
