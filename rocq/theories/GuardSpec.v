(* Specification vocabulary for regions with tasks that can fail. *)
From Coq Require Import ZArith List.
From Verif Require Import Base DescModel TaskModel TaskSpec GuardModel.
Import ListNotations.
Open Scope Z_scope.

(* A task described by what it computes: a kernel as in TaskSpec.v, the code it ends with,
   and whether its source contains a call of plasma_request_fail at all. *)
Record cktask (V : Type) := mkcktask {
  ck_task : ktask V;
  ck_info : mem V -> Z;
  ck_may_fail : bool }.
Arguments mkcktask {V} _ _ _.
Arguments ck_task {V} _.
Arguments ck_info {V} _ _.
Arguments ck_may_fail {V} _.

(* a kernel that cannot fail *)
Definition sure {V} (k : ktask V) : cktask V := mkcktask k (fun _ => 0) false.

Definition cimplements {V} (t : ctask V) (k : cktask V) : Prop :=
  c_deps t = k_deps (ck_task k) /\
  (forall l, cmay_read (c_body t) l -> k_reads (ck_task k) l) /\
  (forall l, cmay_write (c_body t) l -> k_writes (ck_task k) l) /\
  (forall i, cmay_end (c_body t) i -> i <> 0 -> ck_may_fail k = true) /\
  (forall m, meq (fst (crun (c_body t) m)) (k_fun (ck_task k) m)) /\
  (forall m, snd (crun (c_body t) m) = ck_info k m).

(* the sequential execution: tasks run in submission order until one fails *)
Fixpoint gseq {V} (ks : list (cktask V)) (m : mem V) : mem V * Z :=
  match ks with
  | [] => (m, PlasmaSuccess)
  | k :: ks' => if ck_info k m =? 0 then gseq ks' (k_fun (ck_task k) m)
                else (k_fun (ck_task k) m, ck_info k m)
  end.

(* the tasks that may fail wait for each other, in submission order *)
Definition fail_chain {V} (ks : list (cktask V)) : Prop :=
  forall l1 a l2 b l3, ks = l1 ++ a :: l2 ++ b :: l3 ->
    ck_may_fail a = true -> ck_may_fail b = true ->
    linked (ck_task a) (map ck_task l2) (ck_task b).

(* Total correctness of a region whose tasks may fail, over all schedules; Q is about the
   final memory and the sequence status. *)
Definition gregion_ensures {V} (ks : list (cktask V)) (M : mem V) (Q : mem V -> Z -> Prop) : Prop :=
  (exists ts, Forall2 cimplements ts ks) /\
  (forall ts s, Forall2 cimplements ts ks -> gsteps ts (gstart ts M) s ->
     (gend s -> Q (gmem s) (gstatus s)) /\ (~ gend s -> exists s', gstep ts s s')).
