(* Specification vocabulary for the QR factorization. *)
From Coq Require Import ZArith List.
From Verif Require Import Base NumModel MatModel TriSpec.
Import ListNotations.
Open Scope Z_scope.

Section QrSpec.
  Context {N : numbers}.

  (* What is assumed of LAPACK zlarfg. For the vector (alpha, x) it returns beta, tau and v such
     that H = I - tau*(1,v)*(1,v)^H is unitary and H^H*(alpha,x) = (beta,0). *)
  Definition larfg_ok (lg : N -> list N -> N * N * list N) : Prop :=
    forall alpha x beta tau v, lg alpha x = (beta, tau, v) ->
      let at_ (l : list N) (i : Z) := nth (Z.to_nat i) l n0 in
      let len := Z.of_nat (length x) in
      let vv := nadd n1 (nsum (fun i => nmul (nconj (at_ v i)) (at_ v i)) 0 len) in
      let vx := nadd alpha (nsum (fun i => nmul (nconj (at_ v i)) (at_ x i)) 0 len) in
      nadd tau (nconj tau) = nmul (nmul tau (nconj tau)) vv /\
      beta = nsub alpha (nmul (nconj tau) vx) /\
      forall i, 0 <= i < len -> nsub (at_ x i) (nmul (nmul (nconj tau) vx) (at_ v i)) = n0.

  (* the rows and the columns of the n x n matrix Q are orthonormal *)
  Definition is_unitary (n : Z) (Q : Z -> Z -> N) : Prop :=
    forall i j, 0 <= i < n -> 0 <= j < n ->
      nsum (fun l => nmul (nconj (Q l i)) (Q l j)) 0 n = (if i =? j then n1 else n0) /\
      nsum (fun l => nmul (Q i l) (nconj (Q j l))) 0 n = (if i =? j then n1 else n0).

  (* op(Q)*C or C*op(Q), Q being p x p *)
  Definition q_times (side trans p : Z) (Q C : Z -> Z -> N) (i j : Z) : N :=
    if side =? PlasmaLeft then nsum (fun l => nmul (op_of trans Q i l) (C l j)) 0 p
    else nsum (fun l => nmul (C i l) (op_of trans Q l j)) 0 p.
End QrSpec.
