(* Executions of the bisection that go wrong, and counts that are wrong. *)
From Coq Require Import ZArith QArith List Bool Lia.
From Verif Require Import Base StevxModel StevxSpec.
Import ListNotations.
Open Scope Z_scope.

(* the execution in which the first call always goes on *)
Fixpoint brun (count : Z -> Z) (mid : Z -> Z -> Z) (c : control) (k : Z) (fuel : nat) (s : state) : state :=
  match fuel with
  | O => s
  | S fuel' =>
      match s_calls s with
      | [] => s
      | t :: l2 =>
          brun count mid c k fuel'
            {| s_calls := fst (call_step count mid c k t s) ++ l2;
               s_val := s_val (snd (call_step count mid c k t s));
               s_mul := s_mul (snd (call_step count mid c k t s));
               s_outside := s_outside (snd (call_step count mid c k t s)) |}
      end
  end.

Lemma brun_reaches : forall count mid c k fuel s,
  reaches (bstep count mid c k) s (brun count mid c k fuel s).
Proof.
  intros count mid c k fuel. induction fuel as [|fuel IH]; intros s; cbn [brun]; [constructor|].
  destruct (s_calls s) as [|t l2] eqn:E; [constructor|].
  eapply re_step; [|apply IH].
  apply (bs_call count mid c k [] t l2 s). exact E.
Qed.

Definition half (x y : Z) : Z := (x + y) / 2.
Lemma half_midpoint : midpoint half.
Proof.
  intros x y H. unfold half. pose proof (Z.div_mod (x + y) 2 ltac:(lia)).
  pose proof (Z.mod_pos_bound (x + y) 2 ltac:(lia)). lia.
Qed.

(* two eigenvalues at 5 *)
Definition double (x : Z) : Z := if x <=? 5 then 0 else 2.
Lemma double_counts : counts 2 double.
Proof.
  split; intros; unfold double; repeat match goal with |- context [?a <=? ?b] => destruct (Z.leb_spec a b) end; lia.
Qed.
Lemma double_encloses : encloses 2 double half 0 10.
Proof. repeat split; try reflexivity. lia. Qed.

Lemma uninitialized : exists n count mid k gmin gmax vl vu val0 mul0 c root nev s found val mul,
  counts n count /\ midpoint mid /\ encloses n count mid gmin gmax /\ vl < vu /\ count vu - count vl <= k /\
  zstevx2 count mid PlasmaVec PlasmaRangeV n k gmin gmax vl vu 0 0 = SxRuns c root nev /\
  reaches (bstep count mid c k)
    {| s_calls := [Entering root]; s_val := val0; s_mul := mul0; s_outside := false |} s /\
  s_calls s = [] /\ finish PlasmaVec nev (s_val s) (s_mul s) = Some (found, val, mul) /\
  locations count vl vu = [5] /\ found = 2.
Proof.
  eexists 2, double, half, 2, 0, 10, 0, 10, (fun _ => 0), (fun _ => 7), _, _, _, _, _, _, _.
  split; [exact double_counts|]. split; [exact half_midpoint|]. split; [exact double_encloses|].
  split; [lia|]. split; [vm_compute; discriminate|]. split; [lazy; reflexivity|].
  split; [apply (brun_reaches _ _ _ _ 20)|].
  split; [lazy; reflexivity|]. split; [lazy; reflexivity|]. split; lazy; reflexivity.
Qed.

Lemma negative_index : exists n count mid k gmin gmax il iu val0 mul0 c root nev s,
  counts n count /\ midpoint mid /\ encloses n count mid gmin gmax /\ 1 <= il <= iu /\ iu <= n /\
  iu + 1 - il <= k /\
  zstevx2 count mid PlasmaVec PlasmaRangeI n k gmin gmax 0 0 il iu = SxRuns c root nev /\
  reaches (bstep count mid c k)
    {| s_calls := [Entering root]; s_val := val0; s_mul := mul0; s_outside := false |} s /\
  s_outside s = true.
Proof.
  eexists 2, double, half, 2, 0, 10, 2, 2, (fun _ => 0), (fun _ => 0), _, _, _, _.
  split; [exact double_counts|]. split; [exact half_midpoint|]. split; [exact double_encloses|].
  split; [lia|]. split; [lia|]. split; [lia|]. split; [lazy; reflexivity|].
  split; [apply (brun_reaches _ _ _ _ 20)|]. lazy; reflexivity.
Qed.

Lemma no_vectors : forall nev val mul, finish PlasmaNoVec nev val mul = None.
Proof.
  intros. unfold finish. destruct (vectors_found nev mul <? nev); reflexivity.
Qed.

(* the entries of an array *)
Definition arr (l : list Q) (i : Z) : Q := nth (Z.to_nat i) l 0%Q.

Lemma two : forall x, 0 <= x < 2 -> x = 0 \/ x = 1.
Proof. intros. lia. Qed.

Lemma count_misses : exists diag offd u lam,
  length diag = S (length offd) /\ (lam < u)%Q /\
  eigenvalue (Z.of_nat (length diag)) (arr diag) (arr offd) lam /\ zlaneg2 diag offd u = 0.
Proof.
  exists [1%Q; 0%Q], [0%Q], 1%Q, 0%Q. split; [reflexivity|]. split; [reflexivity|]. split; [|reflexivity].
  exists (fun i => if i =? 1 then 1%Q else 0%Q). split.
  - exists 1. split; [cbn [length Z.of_nat]; lia|]. cbn. discriminate.
  - intros i Hi. cbn [length] in Hi. destruct (two i) as [-> | ->]; [lia|reflexivity|reflexivity].
Qed.

Lemma count_too_many : exists diag offd u,
  length diag = S (length offd) /\ (forall e, In e offd -> ~ (e == 0)%Q) /\
  eigenvalue (Z.of_nat (length diag)) (arr diag) (arr offd) u /\
  zlaneg2 diag offd u = Z.of_nat (length diag).
Proof.
  exists [0%Q; 0%Q], [1%Q], 1%Q. split; [reflexivity|]. split.
  { intros e [<-|[]]. discriminate. }
  split; [|reflexivity].
  exists (fun i => 1%Q). split.
  - exists 1. split; [cbn [length Z.of_nat]; lia|]. discriminate.
  - intros i Hi. cbn [length] in Hi. destruct (two i) as [-> | ->]; [lia|reflexivity|reflexivity].
Qed.

Lemma count_decreases : exists diag offd u v,
  length diag = S (length offd) /\ (u < v)%Q /\ zlaneg2 diag offd v < zlaneg2 diag offd u.
Proof.
  exists [1%Q; 0%Q], [0%Q], (1 # 2)%Q, 1%Q. split; [reflexivity|]. split; reflexivity.
Qed.
