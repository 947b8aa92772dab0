(* Specification of regions in which the master thread waits for tasks and decides, and of a solution
   accepted by the test of plasma_zcposv. *)
From Coq Require Import ZArith List.
From Verif Require Import Base NumModel FieldModel TaskModel TaskSpec GuardModel GuardSpec DescModel MatModel
  NormModel NormSpec RefineTaskModel.
Import ListNotations.
Open Scope Z_scope.

(* lists of tasks with a taskwait between them; once the status is not 0 no task does anything *)
Fixpoint gphases_ensures {V} (ph : list (list (cktask V))) (M : mem V) (Q : mem V -> Z -> Prop) : Prop :=
  match ph with
  | [] => Q M 0
  | ks :: r => gregion_ensures ks M (fun M' st =>
      (st = 0 -> gphases_ensures r M' Q) /\ (st <> 0 -> Q M' st))
  end.

(* the value of *iter if tasks have no effect any more *)
Fixpoint idle_iter {V} (p : rprog V) (M : mem V) : Z :=
  match p with RStop iter _ => iter | RWait _ next => idle_iter (next M) M end.

(* Q of *iter, the memory and the status holds at the end of every execution *)
Fixpoint rprog_ensures {V} (p : rprog V) (M : mem V) (Q : Z -> mem V -> Z -> Prop) : Prop :=
  match p with
  | RStop iter ks => gregion_ensures ks M (Q iter)
  | RWait ph next => gphases_ensures ph M (fun M' st =>
      (st = 0 -> rprog_ensures (next M') M' Q) /\ (st <> 0 -> Q (idle_iter (next M') M') M' st))
  end.

(* the same for a call; *iter is not set (None) if the arguments are refused *)
Definition xdriver_ensures {V} (d : xdriver V) (M : mem V) (Q : option Z -> mem V -> Z -> Prop) : Prop :=
  match d with
  | XReturns iter c => Q iter M c
  | XRuns p => rprog_ensures p M (fun iter => Q (Some iter))
  end.

Section Spec.
  Context {N : normed}.

  (* entry (i, j) of B - S*X for an n by n matrix S *)
  Definition residual_at (n : Z) (S B X : Z -> Z -> N) (i j : Z) : N :=
    nadd (nopp (nsum (fun l => nmul (S i l) (X l j)) 0 n)) (B i j).

  (* the largest |re| + |im| of column j of the residual is at most cte times that of X *)
  Definition accepted (n nrhs : Z) (S B X : Z -> Z -> N) (cte : N) : Prop :=
    forall j, 0 <= j < nrhs -> exists x r,
      largest (fun i => 0 <= i < n) (fun i => ncabs1 (X i j)) x /\
      largest (fun i => 0 <= i < n) (fun i => ncabs1 (residual_at n S B X i j)) r /\
      nltb (nmul x cte) r = false.
End Spec.

Section Single.
  Context {V : Type}.
  Variables (bS : Z) (A : desc) (bXs : Z) (X : desc).

  (* l is in the tile of the tile matrix D, in block b, that starts at a *)
  Definition in_tile_at (b : Z) (D : desc) (l a : loc) : Prop :=
    exists m n, 0 <= m < d_mt D /\ 0 <= n < d_nt D /\ a = tptr b D m n /\
      reg a (tile_mmain D m) (tile_mview D m) (tile_nview D n) everywhere l.

  (* A task of the routines for single precision: it works on tiles of As and Xs, declares them by
     their start addresses, and writes tiles of the matrix D in block b only. *)
  Record single_task (b : Z) (D : desc) (k : cktask V) : Prop := {
    si_reads : forall l, k_reads (ck_task k) l -> exists d, In d (k_deps (ck_task k)) /\
      (in_tile_at bS A l (dep_addr d) \/ in_tile_at bXs X l (dep_addr d));
    si_writes : forall l, k_writes (ck_task k) l -> exists d, In d (k_deps (ck_task k)) /\
      in_tile_at b D l (dep_addr d) /\ dep_type d <> DepIn;
    si_finite : exists L L', (forall l, In l L <-> k_reads (ck_task k) l) /\
      (forall l, In l L' <-> k_writes (ck_task k) l);
    si_frame : forall M l, ~ k_writes (ck_task k) l -> k_fun (ck_task k) M l = M l;
    si_det : forall M M', (forall l, k_reads (ck_task k) l -> M l = M' l) ->
      ck_info k M = ck_info k M' /\ forall l, k_writes (ck_task k) l -> k_fun (ck_task k) M l = k_fun (ck_task k) M' l;
    si_sure : ck_may_fail k = false -> forall M, ck_info k M = 0 }.
End Single.
