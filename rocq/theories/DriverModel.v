(* Shape of a synchronous driver. *)
From Coq Require Import ZArith List.
From Verif Require Import Base TaskModel TaskSpec DescModel.
Import ListNotations.
Open Scope Z_scope.

(* A synchronous routine (e.g. compute/zgemm.c:110-283) either returns a code at once, or
   submits a list of tasks in one parallel region, waits for them, frees its tile matrices
   and returns the sequence status. Creation of descriptors, sequence and request and the
   call of plasma_tune_* (which changes no parameter, property C10) do not appear. *)
Inductive driver (V : Type) :=
| Returns (code : Z)
| Runs (ks : list (ktask V)).
Arguments Returns {V} _.
Arguments Runs {V} _.

(* creation of the operands, in order, stopping at the first failure: e.g.
   compute/zgemm.c:212-236 *)
Definition with_desc {V} (r : create_result) (f : desc -> driver V) : driver V :=
  match r with
  | CrError code => Returns code
  | CrOk A _ => f A
  end.
